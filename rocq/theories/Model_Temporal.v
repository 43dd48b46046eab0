(** Model of /repo/include/mini/temporal/ode.hpp and /repo/include/mini/temporal/rk.hpp.
    A column is a function from an arbitrary index type to the reals; the system is a
    time, a solution column and a residual function. *)
From Coq Require Import Reals.
Open Scope R_scope.

Section Temporal.
  Context {I : Type}.
  Definition Column := I -> R.

  (** Eigen's [u += v] and [u *= a], component by component *)
  Definition cadd (u v : Column) : Column := fun i => u i + v i.
  Definition cscale (a : R) (u : Column) : Column := fun i => a * u i.

  (** ode.hpp lines 17-45 [System]: the current time and solution *)
  Record System := mkSystem { s_time : R; s_solution : Column }.

  (** ode.hpp lines 25, 31 *)
  Definition SetTime (s : System) (t : R) : System := mkSystem t (s_solution s).
  Definition SetSolutionColumn (s : System) (u : Column) : System := mkSystem (s_time s) u.

  (** ode.hpp line 45 [GetResidualColumn]: a function of the time and the solution *)
  Variable residual : R -> Column -> Column.
  Definition GetResidualColumn (s : System) : Column := residual (s_time s) (s_solution s).

  (** ode.hpp lines 117-124 [Euler::NextSolution]: the new column and the system, whose time
      has been set *)
  Definition NextSolution (s : System) (t_curr dt : R) : System * Column :=
    let s1 := SetTime s t_curr in
    let u_next := s_solution s1 in
    let residual := cscale dt (GetResidualColumn s1) in
    (s1, cadd u_next residual).

  (** ode.hpp lines 126-129 [Euler::Update] *)
  Definition Euler_Update (s : System) (t_curr dt : R) : System :=
    let (s1, u_next) := NextSolution s t_curr dt in SetSolutionColumn s1 u_next.

  (** rk.hpp lines 23-25 [RungeKutta<1>::Update] *)
  Definition RK1_Update (s : System) (t_curr dt : R) : System := Euler_Update s t_curr dt.

  (** rk.hpp lines 37-44 [RungeKutta<2>::Update] *)
  Definition RK2_Update (s : System) (t_curr dt : R) : System :=
    let u_curr := s_solution s in
    let s1 := Euler_Update s t_curr dt in
    let (s2, u_next) := NextSolution s1 (t_curr + dt) dt in
    let u_next := cadd u_next u_curr in
    let u_next := cscale (1 / 2) u_next in
    SetSolutionColumn s2 u_next.

  (** rk.hpp lines 56-73 [RungeKutta<3>::Update] *)
  Definition RK3_Update (s : System) (t_curr dt : R) : System :=
    let u_curr := s_solution s in
    let s1 := Euler_Update s t_curr dt in
    let u_next := cscale 3 u_curr in
    let (s2, v) := NextSolution s1 (t_curr + dt) dt in
    let u_next := cadd u_next v in
    let u_next := cscale (/ 4) u_next in
    let s3 := SetSolutionColumn s2 u_next in
    let (s4, u_next) := NextSolution s3 (t_curr + dt / 2) dt in
    let u_next := cscale 2 u_next in
    let u_next := cadd u_next u_curr in
    let u_next := cscale (/ 3) u_next in
    SetSolutionColumn s4 u_next.

  (** [RungeKutta<k>::Update] *)
  Definition RK_Update (k : nat) : System -> R -> R -> System :=
    match k with 1%nat => RK1_Update | 2%nat => RK2_Update | _ => RK3_Update end.
End Temporal.
Arguments Column : clear implicits.
Arguments System : clear implicits.

(** ode.hpp lines 53-83 [Constant]: the residual is a matrix times the solution; here any
    operator [a] *)
Definition Constant {I} (a : Column I -> Column I) : R -> Column I -> Column I := fun _ u => a u.
