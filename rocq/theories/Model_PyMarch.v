(** Model of the choice of time steps in the Python package: concept.py, lines 752-785 and 821-822, 1143-1147; element.py, lines 20-29 and 179-180; and the loops of [solve_and_write] and [animate], solver.py, lines 213-293.
    Files, plots and messages are not modelled, apart from the frames: which state is written at which time.  [None]: an exception, or a loop that does not end within the given number of steps. *)
From Coq Require Import Reals List Arith ZArith QArith Qreals.
From Verif Require Import Arrays Model_PyEuler.
Import ListNotations.
Open Scope R_scope.

(** ** CFL numbers *)
(** [DiscontinuousGalerkin._cfl] in thousandths (element.py 20-23): the columns 2, 3 and 4; all others hold ones *)
Definition cfl_column (rk_order : nat) : list Z :=
  match rk_order with
  | 2%nat => [1000; 333; 209; 130; 89; 66; 51; 40; 33]
  | 3%nat => [1256; 409; 209; 130; 89; 66; 51; 40; 33]
  | 4%nat => [1392; 464; 235; 145; 100; 73; 56; 45; 37]
  | 0%nat | 1%nat => [1000; 1000; 1000; 1000; 1000; 1000; 1000; 1000; 1000]
  | _ => []
  end%Z.
(** [DiscontinuousGalerkin.suggest_cfl] (element.py 28-29); [None]: [IndexError] *)
Definition dg_cfl (degree rk_order : nat) : option R := do c <- nth_error (cfl_column rk_order) degree; Some (IZR c / 1000).
(** [FluxReconstruction.suggest_cfl] (element.py 179-180) *)
Definition fr_cfl (degree rk_order : nat) : option R := do c <- dg_cfl degree rk_order; Some (2 * c).
(** [spatial_factor] (concept.py 763-777) *)
Definition spatial_factor (p : nat) : R :=
  match p with
  | 0%nat => 1 | 1%nat => 4 | 2%nat => 6 | 3%nat => 12 | 4%nat => 28 | 5%nat => 50 | 6%nat => 90
  | _ => 3 * INR p ^ 2
  end.
(** [_suggest_dt_by_blazek] (concept.py 757-785) of an element with length [h] and degree [p]; [cfl] is its [suggest_cfl], and the radii are those of the equation at the average *)
Definition blazek (cfl : nat -> nat -> option R) (h : R) (p : nat) (lambda_c lambda_d : R) : option R :=
  let lambda_c := Rmax lambda_c (1 / 10 ^ 16) in
  do delta_t <- div h (lambda_c + spatial_factor p * lambda_d);
  do c <- cfl p 3%nat;
  Some (delta_t * c).

(** ** Marching *)
Section March.
  Context {S : Type}.
  (** what the elements suggest in a state, [ode_solver.update], [apply_viscosity] *)
  Variables (suggestions : S -> option (list R)) (update : S -> R -> R -> option S) (apply_viscosity : S -> option S).
  (** [SpatialScheme.suggest_delta_t] (concept.py 1143-1147) *)
  Definition suggest_delta_t (s : S) (delta_t : R) : option R := do l <- suggestions s; Some (fold_left Rmin l delta_t).
  (** [while t_curr < t_next] (solver.py 233-249); the steps made are collected as state, time and size; [with_viscosity] is false in [animate] (solver.py 281-288) *)
  Fixpoint march (with_viscosity : bool) (fuel : nat) (dt_max t_next : R) (s : S) (t_curr : R) (steps : list (S * R * R)) : option (S * R * list (S * R * R)) :=
    if Rlt_dec t_curr t_next then
      match fuel with
      | O => None
      | Datatypes.S fuel =>
          do dt_suggested <- suggest_delta_t s (t_next - t_curr);
          let dt_actual := Rmin dt_max dt_suggested in
          do s' <- update s dt_actual t_curr;
          do s' <- (if with_viscosity then apply_viscosity s' else Some s');
          march with_viscosity fuel dt_max t_next s' (t_curr + dt_actual) (steps ++ [(s, t_curr, dt_actual)])
      end
    else Some (s, t_curr, steps).
  (** the frames after the first (solver.py 224-249): pairs of state and time *)
  Fixpoint frames (fuel n : nat) (dt_max dt_per_frame : R) (s : S) (t_curr : R) : option (list (S * R)) :=
    match n with
    | O => Some []
    | Datatypes.S n =>
        do r <- march true fuel dt_max (t_curr + dt_per_frame) s t_curr [];
        let '(s, t, _) := r in
        do rest <- frames fuel n dt_max dt_per_frame s t;
        Some ((s, t) :: rest)
    end.
  (** [solve_and_write] (solver.py 213-249) from the state after [initialize] *)
  Definition solve_and_write (fuel : nat) (t_start t_stop : R) (n_step n_frame : nat) (s : S) : option (list (S * R)) :=
    do dt_max <- div (t_stop - t_start) (INR n_step);
    do dt_per_frame <- div (t_stop - t_start) (INR n_frame);
    do s <- apply_viscosity s;
    do rest <- frames fuel n_frame dt_max dt_per_frame s t_start;
    Some ((s, t_start) :: rest).
  (** [update_func] of [animate] (solver.py 270-288), the part after plotting *)
  Definition update_func (fuel : nat) (dt_max dt_per_frame t_stop : R) (s : S) (t_curr : R) : option (S * R * list (S * R * R)) :=
    march false fuel dt_max (Rmin t_stop (t_curr + dt_per_frame)) s t_curr [].
End March.
