(** Model of the exact solutions of the Python package: solver.py, lines 295-325 ([LinearSmooth]), 327-339 ([LinearJumps]) and 347-401 ([InviscidBurgers]). *)
From Coq Require Import Reals List Arith.
From Verif Require Import Arrays.
Import ListNotations.
Open Scope R_scope.

(** [_wave_number] (solver.py 306, 359) *)
Definition wave_number (k_const : nat) (length : R) : R := INR k_const * PI * 2 / length.
(** [LinearSmooth.u_init] and [InviscidBurgers.u_init] (solver.py 316-319, 370-373) *)
Definition smooth_init (x_left wave_number u_mean x_global : R) : R :=
  let x_global := x_global - x_left in
  let value := sin (x_global * wave_number) in
  value + u_mean.
(** [LinearSmooth.u_exact] (solver.py 321-323), also used by [LinearJumps] with its own [u_init] *)
Definition linear_exact (u_init : R -> R) (wave_number a_const b_const x_global t_curr : R) : R :=
  let ratio := exp (- t_curr * b_const * wave_number ^ 2) in
  ratio * u_init (x_global - a_const * t_curr).
(** [LinearJumps.u_init] (solver.py 335-338) *)
Definition sign_of (x : R) : R := if Rlt_dec x 0 then -1 else if Rlt_dec 0 x then 1 else 0.
Definition jumps_init (x_left wave_number u_mean x_global : R) : R :=
  let x_global := x_global - x_left in
  let value := sin (x_global * wave_number) in
  sign_of value + u_mean.

(** [func] in [InviscidBurgers.u_exact] (solver.py 386-388); the speed is [k * u] (equation.py 68-69) *)
Definition burgers_func (u_init : R -> R) (k x_global t_curr u_curr : R) : R :=
  let ku := k * u_curr in
  u_curr - u_init (x_global - ku * t_curr).
(** the loop enlarging the interval (solver.py 396-398), with a bound on the number of rounds *)
Fixpoint enlarge (func : R -> R) (delta : R) (fuel : nat) (u_min u_max : R) : option (R * R) :=
  match fuel with
  | O => None
  | S fuel => if Rlt_dec 0 (func u_min * func u_max) then enlarge func delta fuel (u_min - delta) (u_max + delta) else Some (u_min, u_max)
  end.
(** [InviscidBurgers.u_exact] (solver.py 375-401): the value kept for the point, if any, is [u_prev]; [None] for a nonzero mean stands for [nan] *)
Definition burgers_exact (bisect : (R -> R) -> R -> R -> option R) (u_init : R -> R) (u_mean k : R) (u_prev : option R) (fuel : nat) (x_global t_curr : R) : option R :=
  if Req_EM_T u_mean 0 then
    let func := burgers_func u_init k x_global t_curr in
    let u_prev := match u_prev with Some u => u | None => u_init x_global end in
    let delta := 2 / 100 in
    do bracket <- enlarge func delta fuel (u_prev - delta) (u_prev + delta);
    bisect func (fst bracket) (snd bracket)
  else None.
