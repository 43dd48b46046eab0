(** Model of the time integrators of the Python package: temporal.py and the time loop of solver.py.  A column is a function from an
    arbitrary index type to the reals, a system is a time and a solution column; the residual is a function of
    both.  Setting the column applies the limiter (spatial.py 87-96), a parameter here. *)
From Coq Require Import Reals List Arith Bool.
From Verif Require Import Arrays Model_Temporal.
Import ListNotations.
Open Scope R_scope.

Section Temporal.
  Context {I : Type}.
  Local Notation Column := (Model_Temporal.Column I).
  Local Notation System := (@Model_Temporal.System I).
  Variable residual : R -> Column -> Column.
  Variable limit : Column -> Column.

  (** numpy's [u + v], [u * a] and [u / a] *)
  Definition plus (u v : Column) : Column := fun i => u i + v i.
  Definition times (u : Column) (a : R) : Column := fun i => u i * a.
  Definition over (u : Column) (a : R) : Column := fun i => u i / a.

  (** [set_time], [get_solution_column], [get_residual_column], [set_solution_column]
      (concept.py 1024-1047, spatial.py 87-107, 136-161) *)
  Definition set_time (s : System) (t : R) : System := mkSystem t (s_solution s).
  Definition get_solution_column (s : System) : Column := s_solution s.
  Definition get_residual_column (s : System) : Column := residual (s_time s) (s_solution s).
  Definition set_solution_column (s : System) (u : Column) : System := mkSystem (s_time s) (limit u).

  (** [ExplicitEuler.u_next] (temporal.py 10-16) *)
  Definition u_next (s : System) (delta_t t_curr : R) : System * Column :=
    let s := set_time s t_curr in
    let u_curr := get_solution_column s in
    let residual := get_residual_column s in
    (s, plus u_curr (times residual delta_t)).
  (** [ExplicitEuler.update] (temporal.py 18-20) *)
  Definition euler_update (s : System) (delta_t t_curr : R) : System :=
    let (s, u) := u_next s delta_t t_curr in set_solution_column s u.
  (** [_rk1_update] (temporal.py 47-49) *)
  Definition rk1_update (s : System) (delta_t t_curr : R) : System := euler_update s delta_t t_curr.
  (** [_rk2_update] (temporal.py 51-62) *)
  Definition rk2_update (s : System) (delta_t t_curr : R) : System :=
    let u_curr := get_solution_column s in
    let s := euler_update s delta_t t_curr in
    let t_temp := t_curr + delta_t in
    let (s, u) := u_next s delta_t t_temp in
    let u := plus u u_curr in
    let u := over u 2 in
    set_solution_column s u.
  (** [_rk3_update] (temporal.py 64-83) *)
  Definition rk3_update (s : System) (delta_t t_curr : R) : System :=
    let u_curr := get_solution_column s in
    let s := euler_update s delta_t t_curr in
    let t_temp := t_curr + delta_t in
    let (s, u) := u_next s delta_t t_temp in
    let u := plus u (times u_curr 3) in
    let u := over u 4 in
    let s := set_solution_column s u in
    let t_temp := t_curr + delta_t / 2 in
    let (s, u) := u_next s delta_t t_temp in
    let u := times u 2 in
    let u := plus u u_curr in
    let u := over u 3 in
    set_solution_column s u.
  (** [_rk4_update] (temporal.py 85-109) *)
  Definition rk4_update (s : System) (delta_t t_curr : R) : System :=
    let s := set_time s t_curr in
    let u_frac04 := get_solution_column s in
    let r_frac04 := get_residual_column s in
    let u_frac14 := plus u_frac04 (over (times r_frac04 delta_t) 2) in
    let s := set_solution_column s u_frac14 in
    let s := set_time s (t_curr + delta_t / 2) in
    let r_frac14 := get_residual_column s in
    let u_frac24 := plus u_frac04 (over (times r_frac14 delta_t) 2) in
    let s := set_solution_column s u_frac24 in
    let s := set_time s (t_curr + delta_t / 2) in
    let r_frac24 := get_residual_column s in
    let u_frac34 := plus u_frac04 (times r_frac24 delta_t) in
    let s := set_solution_column s u_frac34 in
    let s := set_time s (t_curr + delta_t) in
    let r_frac34 := get_residual_column s in
    let delta_u := plus r_frac04 r_frac34 in
    let delta_u := plus delta_u (times (plus r_frac14 r_frac24) 2) in
    let delta_u := times delta_u (delta_t / 6) in
    set_solution_column s (plus u_frac04 delta_u).
  (** [RungeKutta.__init__] and [update] (temporal.py 29-45); [None]: the failed assertion *)
  Definition rk_update (order : nat) (s : System) (delta_t t_curr : R) : option System :=
    do s <- match order with
            | 1%nat => Some (rk1_update s delta_t t_curr)
            | 2%nat => Some (rk2_update s delta_t t_curr)
            | 3%nat => Some (rk3_update s delta_t t_curr)
            | 4%nat => Some (rk4_update s delta_t t_curr)
            | _ => None
            end;
    Some (set_time s (t_curr + delta_t)).
End Temporal.

(** ** The time loop *)
Section Loop.
  Context {S : Type}.
  (** [OdeSolver.update] followed by [apply_viscosity], and the steps suggested by the elements
      (solver.py 243-244; [Element.suggest_delta_t], concept.py 821-823) *)
  Variable update : S -> R -> R -> option S.
  Variable suggestions : S -> list R.
  (** [SpatialScheme.suggest_delta_t] (concept.py 1143-1147) *)
  Definition suggest_delta_t (s : S) (delta_t : R) : R := fold_left Rmin (suggestions s) delta_t.
  (** the loop [while t_curr < t_next] (solver.py 231-249); the steps are recorded as (t_curr, dt_actual).
      [None]: out of fuel, or the update fails *)
  Fixpoint advance (fuel : nat) (dt_max t_next : R) (s : S) (t_curr : R) : option (S * R * list (R * R)) :=
    if Rlt_dec t_curr t_next then
      match fuel with
      | O => None
      | Datatypes.S fuel =>
          let dt_suggested := suggest_delta_t s (t_next - t_curr) in
          let dt_actual := Rmin dt_max dt_suggested in
          do s <- update s dt_actual t_curr;
          do r <- advance fuel dt_max t_next s (t_curr + dt_actual);
          Some (fst r, (t_curr, dt_actual) :: snd r)
      end
    else Some (s, t_curr, []).
  (** the loop over the frames (solver.py 225-249): the times and states written, and the steps; the last
      frame is written and then the loop is left *)
  Fixpoint frames (fuel n : nat) (dt_max dt_per_frame : R) (s : S) (t_curr : R) : option (list (R * S) * list (R * R)) :=
    match n with
    | O => Some ([(t_curr, s)], [])
    | Datatypes.S n =>
        do r <- advance fuel dt_max (t_curr + dt_per_frame) s t_curr;
        do q <- frames fuel n dt_max dt_per_frame (fst (fst r)) (snd (fst r));
        Some ((t_curr, s) :: fst q, snd r ++ snd q)
    end.
  (** [solve_and_write] (solver.py 213-249); [s] is the state after [initialize] and [apply_viscosity] *)
  Definition solve_and_write (fuel : nat) (t_start t_stop : R) (n_step n_frame : nat) (s : S) : option (list (R * S) * list (R * R)) :=
    if (n_step =? 0)%nat || (n_frame =? 0)%nat then None else
    let dt_max := (t_stop - t_start) / INR n_step in
    let dt_per_frame := (t_stop - t_start) / INR n_frame in
    frames fuel n_frame dt_max dt_per_frame s t_start.
End Loop.
