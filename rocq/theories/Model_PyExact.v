(** Model of the exact Riemann solver of the Euler equations in the Python package:
    /repo/python/riemann.py lines 200-386.
    A failing assertion or exception is [None]; so is a loop that still runs after [fuel] rounds.
    The root finder [fsolve] of scipy is a parameter.  Divisions by gamma, gamma - 1 and gamma + 1 are
    not checked: gas.Ideal cannot be built with gamma = 1, and all properties are about gamma > 1. *)
From Coq Require Import Reals.
From Verif Require Import Arrays Model_Exact Model_PyEuler.
Open Scope R_scope.

(** riemann.py lines 338-340 [_P] *)
Definition py_P (gamma p_1 p_2 : R) : R := (p_1 * (gamma - 1) + p_2 * (gamma + 1)) / 2.

(** riemann.py lines 308-320 [_f]; [powR] is the power of numbers that are not negative *)
Definition py_f (gamma p_2 p_1 rho_1 : R) : option R :=
  if Rgt_dec p_2 p_1 then
    do q <- root (rho_1 * py_P gamma p_1 p_2);
    div (p_2 - p_1) q
  else if Rlt_dec p_2 p_1 then
    let power := (gamma - 1) / gamma / 2 in
    do x <- div p_2 p_1;
    if Rge_dec x 0 then
      let f := powR x power - 1 in
      do a <- p_rho_to_a gamma p_1 rho_1;
      let f := f * (2 * a) in
      Some (f / (gamma - 1))
    else None
  else Some 0.

(** riemann.py lines 322-336 [_f_prime] *)
Definition py_f_prime (gamma p_2 p_1 rho_1 : R) : option R :=
  if (if Req_EM_T p_1 0 then if Req_EM_T p_2 0 then true else false else false) then None
  else if Rgt_dec p_2 p_1 then
    let P := py_P gamma p_1 p_2 in
    do c <- div (p_2 - p_1) P;
    do q <- root (rho_1 * P);
    div (1 - c / 4 * (gamma + 1)) q
  else
    do q <- root (rho_1 * p_1 * gamma);
    do df <- div 1 q;
    if Rlt_dec p_2 p_1 then
      let power := (gamma + 1) / gamma / 2 in
      do x <- div p_1 p_2;
      Some (df * powR x power)
    else Some df.

(** riemann.py lines 342-345 [_guess] *)
Fixpoint py_guess (func : R -> option R) (fuel : nat) (p : R) : option R :=
  match fuel with
  | O => None
  | S fuel =>
      do fp <- func p;
      if Rgt_dec fp 0 then py_guess func fuel (p * (1 / 2)) else Some p
  end.

(** riemann.py lines 347-353 [_shock]: density and speed *)
Definition py_shock (u_2 p_2 u_1 p_1 rho_1 : R) : option (R * R) :=
  if Req_EM_T u_2 u_1 then None else
  do c <- div ((p_2 - p_1) / (u_2 - u_1)) rho_1;
  let slope := u_1 + c in
  if Req_EM_T u_2 slope then None else
  Some (rho_1 * (u_1 - slope) / (u_2 - slope), slope).

(** primitive variables of one side *)
Record Prim := mkPrim { p_rho : R; p_u : R; p_p : R }.

(** the attributes set by [_determine_wave_structure]; [None] stands for not-a-number, which only occurs
    in all four values between the 1-wave and the 3-wave at once *)
Record Star := mkStar { s_p : R; s_u : R; s_rho_left : R; s_rho_right : R }.
Record Waves := mkWaves {
  w_left : Prim; w_right : Prim;
  w_inv_left : R * R; w_inv_right : R * R;
  w_star : option Star;
  slope_1_left : R; slope_1_right : R; slope_2 : R; slope_3_left : R; slope_3_right : R }.

(** riemann.py lines 239-241: the function whose root is sought *)
Definition py_func (gamma : R) (l r : Prim) (p : R) : option R :=
  do fl <- py_f gamma p (p_p l) (p_rho l);
  do fr <- py_f gamma p (p_p r) (p_rho r);
  Some (fl + fr + (p_u r - p_u l)).
(** lines 245-246 *)
Definition py_func_prime (gamma : R) (l r : Prim) (p : R) : option R :=
  do fl <- py_f_prime gamma p (p_p l) (p_rho l);
  do fr <- py_f_prime gamma p (p_p r) (p_rho r);
  Some (fl + fr).

(** [fsolve(func, fprime, x0)]: [None] if the error flag is not 1 or an exception is raised *)
Definition Fsolve := (R -> option R) -> (R -> option R) -> R -> option R.

(** riemann.py lines 242-250: the pressure between the waves *)
Definition py_star_pressure (fsolve : Fsolve) (fuel : nat) (gamma : R) (l r : Prim) : option R :=
  let func := py_func gamma l r in
  do p_2 <- py_guess func fuel (p_p l);
  do f_2 <- func p_2;
  if Rgt_dec (Rabs f_2) (/ 10 ^ 8) then
    do x0 <- py_guess func fuel (p_p l);
    fsolve func (py_func_prime gamma l r) x0
  else Some p_2.

(** riemann.py lines 256-275, the 1-wave: density behind it and both slopes; 1e-10 is [eps] *)
Definition py_wave_1 (gamma a_left u_2 p_2 : R) (l : Prim) : option (R * R * R) :=
  let eps := / 10 ^ 10 in
  if Rgt_dec p_2 (p_p l + eps) then
    do s <- py_shock u_2 p_2 (p_u l) (p_p l) (p_rho l);
    Some (fst s, snd s, snd s)
  else if Rlt_dec p_2 (p_p l - eps) then
    let a_2 := a_left + (p_u l - u_2) / 2 * (gamma - 1) in
    if Rge_dec a_2 0 then
      do q <- div p_2 (a_2 ^ 2);
      Some (q * gamma, p_u l - a_left, u_2 - a_2)
    else None
  else Some (p_rho l, p_u l, p_u l).

(** riemann.py lines 276-294, the 3-wave *)
Definition py_wave_3 (gamma a_right u_2 p_2 : R) (r : Prim) : option (R * R * R) :=
  let eps := / 10 ^ 8 in
  if Rgt_dec p_2 (p_p r + eps) then
    do s <- py_shock u_2 p_2 (p_u r) (p_p r) (p_rho r);
    Some (fst s, snd s, snd s)
  else if Rlt_dec p_2 (p_p r - eps) then
    let a_2 := a_right - (p_u r - u_2) / 2 * (gamma - 1) in
    if Rge_dec a_2 0 then
      do q <- div p_2 (a_2 ^ 2);
      Some (q * gamma, u_2 + a_2, p_u r + a_right)
    else None
  else Some (p_rho r, p_u r, p_u r).

(** riemann.py lines 209-294 [_determine_wave_structure], with [_exist_vacuum] of lines 298-306 inlined *)
Definition py_wave_structure (fsolve : Fsolve) (fuel : nat) (gamma : R) (value_left value_right : Arr)
    : option Waves :=
  do wl <- conservative_to_primitive gamma value_left;
  do wr <- conservative_to_primitive gamma value_right;
  let '(rho_left, u_left, p_left) := wl in
  let '(rho_right, u_right, p_right) := wr in
  let l := mkPrim rho_left u_left p_left in
  let r := mkPrim rho_right u_right p_right in
  if Req_EM_T (p_left * p_right) 0 then None else
  do a_left <- p_rho_to_a gamma p_left rho_left;
  do a_right <- p_rho_to_a gamma p_right rho_right;
  do e_left <- div p_left (powR rho_left gamma);
  do e_right <- div p_right (powR rho_right gamma);
  let i_left := u_left + 2 * a_left / (gamma - 1) in
  let i_right := u_right - 2 * a_right / (gamma - 1) in
  if Rle_dec i_left i_right then
    let s1l := u_left - a_left in
    let s3r := u_right + a_right in
    let s2 := (i_left + i_right) / 2 in
    (* the assertion of lines 235-236 *)
    if Rlt_dec s1l i_left then if Rle_dec i_left s2 then if Rle_dec s2 i_right then if Rlt_dec i_right s3r then
      Some (mkWaves l r (e_left, i_left) (e_right, i_right) None s1l i_left s2 i_right s3r)
    else None else None else None else None
  else
    do p_2 <- py_star_pressure fsolve fuel gamma l r;
    do f_left <- py_f gamma p_2 p_left rho_left;
    do f_right <- py_f gamma p_2 p_right rho_right;
    let u_2 := (u_left - f_left + u_right + f_right) / 2 in
    do w1 <- py_wave_1 gamma a_left u_2 p_2 l;
    do w3 <- py_wave_3 gamma a_right u_2 p_2 r;
    let '(rho_2_left, s1l, s1r) := w1 in
    let '(rho_2_right, s3l, s3r) := w3 in
    Some (mkWaves l r (e_left, i_left) (e_right, i_right) (Some (mkStar p_2 u_2 rho_2_left rho_2_right))
            s1l s1r u_2 s3l s3r).

(** an array of three numbers or of three not-a-numbers *)
Inductive Val := Num (U : Arr) | NaN3.

(** the last line of [_get_value] *)
Definition give (gamma rho u p : R) : option Val :=
  do U <- primitive_to_conservative gamma rho u p; Some (Num U).

(** riemann.py lines 355-385 [_get_value] *)
Definition py_value_at (gamma : R) (w : Waves) (slope : R) : option Val :=
  let r := (gamma - 1) / (gamma + 1) in
  if Rlt_dec slope (slope_2 w) then
    if Rle_dec slope (slope_1_left w) then give gamma (p_rho (w_left w)) (p_u (w_left w)) (p_p (w_left w))
    else if Rgt_dec slope (slope_1_right w) then
      match w_star w with
      | Some s => give gamma (s_rho_left s) (s_u s) (s_p s)
      | None => Some NaN3
      end
    else
      let a := snd (w_inv_left w) - slope in
      let a := a * r in
      if Rge_dec a 0 then
        let u := slope + a in
        do rho <- div (a ^ 2 / gamma) (fst (w_inv_left w));
        let rho := powR rho (1 / (gamma - 1)) in
        let p := a ^ 2 * rho / gamma in
        give gamma rho u p
      else None
  else
    if Rge_dec slope (slope_3_right w) then give gamma (p_rho (w_right w)) (p_u (w_right w)) (p_p (w_right w))
    else if Rle_dec slope (slope_3_left w) then
      match w_star w with
      | Some s => give gamma (s_rho_right s) (s_u s) (s_p s)
      | None => Some NaN3
      end
    else
      let a := slope - snd (w_inv_right w) in
      let a := a * r in
      if Rge_dec a 0 then
        let u := slope - a in
        do rho <- div (a ^ 2 / gamma) (fst (w_inv_right w));
        let rho := powR rho (1 / (gamma - 1)) in
        let p := a ^ 2 * rho / gamma in
        give gamma rho u p
      else None.

(** riemann.py lines 32-39 [get_value] after [set_initial] of lines 21-24 *)
Definition py_get_value (fsolve : Fsolve) (fuel : nat) (gamma : R) (value_left value_right : Arr) (x t : R)
    : option Val :=
  do w <- py_wave_structure fsolve fuel gamma value_left value_right;
  if Req_EM_T t 0 then if Rle_dec x 0 then Some (Num value_left) else Some (Num value_right)
  else py_value_at gamma w (x / t).

(** riemann.py lines 46-52 [get_upwind_flux]; comparisons with not-a-number are false, so the assertions
    of conservative_to_primitive (equation.py line 197) fail *)
Definition py_exact_flux (fsolve : Fsolve) (fuel : nat) (gamma : R) (value_left value_right : Arr) : option Arr :=
  do v <- py_get_value fsolve fuel gamma value_left value_right 0 1;
  match v with
  | Num U => get_convective_flux gamma U
  | NaN3 => None
  end.
