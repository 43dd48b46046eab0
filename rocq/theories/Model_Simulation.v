(** Model of a whole simulation: the discontinuous Galerkin scheme with a limiter on a distributed mesh,
    advanced by the Runge-Kutta schemes.
    Sources: include/mini/spatial/dg/general.hpp, include/mini/spatial/fem.hpp, include/mini/temporal/ode.hpp,
    include/mini/temporal/rk.hpp, include/mini/mesh/part.hpp.
    The residual is that of Model_DG, the limiting that of Model_Reconstruct.  Here the values of the cells are no
    longer arbitrary: they are those of the polynomials whose coefficients are stored in the columns of all
    processes.  A process is identified with its rank, and an entry of the columns of all processes is addressed
    by a rank and a position in the column of this rank.  All processes have the same boundary conditions and make
    the same calls.  The source term is absent ([DummySource], fem.hpp:27-38). *)
From Coq Require Import Reals List Arith String.
From Verif Require Import Vec3 Arrays RSum Model_Dofs Model_DG Model_Temporal Model_Reconstruct.
Import ListNotations.
Open Scope R_scope.

(** ** Time stepping with a [SetSolutionColumn] that changes what it is given *)
Section Limited.
  Context {I : Type}.
  (** what the limiter makes of a column: general.hpp:249 *)
  Variable limit : Column I -> Column I.
  Variable residual : R -> Column I -> Column I.

  (** general.hpp:247-250 [WithLimiterAndSource::SetSolutionColumn] *)
  Definition L_SetSolutionColumn (s : System I) (u : Column I) : System I := SetSolutionColumn s (limit u).

  (** ode.hpp lines 126-129 [Euler::Update] *)
  Definition L_Euler_Update (s : System I) (t_curr dt : R) : System I :=
    let (s1, u_next) := NextSolution residual s t_curr dt in L_SetSolutionColumn s1 u_next.

  (** rk.hpp lines 23-25 [RungeKutta<1>::Update] *)
  Definition L_RK1_Update (s : System I) (t_curr dt : R) : System I := L_Euler_Update s t_curr dt.

  (** rk.hpp lines 37-44 [RungeKutta<2>::Update] *)
  Definition L_RK2_Update (s : System I) (t_curr dt : R) : System I :=
    let u_curr := s_solution s in
    let s1 := L_Euler_Update s t_curr dt in
    let (s2, u_next) := NextSolution residual s1 (t_curr + dt) dt in
    let u_next := cadd u_next u_curr in
    let u_next := cscale (1 / 2) u_next in
    L_SetSolutionColumn s2 u_next.

  (** rk.hpp lines 56-73 [RungeKutta<3>::Update] *)
  Definition L_RK3_Update (s : System I) (t_curr dt : R) : System I :=
    let u_curr := s_solution s in
    let s1 := L_Euler_Update s t_curr dt in
    let u_next := cscale 3 u_curr in
    let (s2, v) := NextSolution residual s1 (t_curr + dt) dt in
    let u_next := cadd u_next v in
    let u_next := cscale (/ 4) u_next in
    let s3 := L_SetSolutionColumn s2 u_next in
    let (s4, u_next) := NextSolution residual s3 (t_curr + dt / 2) dt in
    let u_next := cscale 2 u_next in
    let u_next := cadd u_next u_curr in
    let u_next := cscale (/ 3) u_next in
    L_SetSolutionColumn s4 u_next.

  (** [RungeKutta<k>::Update] *)
  Definition L_RK_Update (k : nat) : System I -> R -> R -> System I :=
    match k with 1%nat => L_RK1_Update | 2%nat => L_RK2_Update | _ => L_RK3_Update end.

  (** the loop of the applications, e.g. demo/linear/single.cpp:225-245, over the times and lengths of the steps *)
  Definition L_march (k : nat) (steps : list (R * R)) (s : System I) : System I :=
    fold_left (fun s td => L_RK_Update k s (fst td) (snd td)) steps s.
End Limited.

(** ** The parts of a mesh, without the solution on them *)

(** what does not change of a cell, part.hpp:183-288 *)
Record gcell := GCell {
  g_id : nat;
  g_points : nat;
  g_coord : nat -> vec;
  g_weight : nat -> R;
  g_basis : vec -> nat -> R;
  g_gradients : vec -> nat -> vec
}.
(** a face, part.hpp:106-181, with the rank that owns the sharer *)
Record gface := GFace {
  g_holder : gcell;
  g_rank : nat;
  g_sharer : gcell;
  g_fpoints : nat;
  g_fcoord : nat -> vec;
  g_fweight : nat -> R;
  g_riemann : nat -> riemann
}.
(** part.hpp:398-1576, what the schemes use *)
Record gpart := GPart {
  g_local_cells : list gcell;
  g_local_faces : list gface;
  g_ghost_faces : list gface;
  g_boundary_faces : string -> list gface
}.

Section Simulation.
  Variables K N kDegrees : nat.
  (** [Riemann::GetFluxMatrix] *)
  Variable FluxMatrix : value -> nat -> vec.

  (** the columns of all processes: a rank and a position in its column *)
  Notation state := (Column (nat * nat)).

  (** polynomial/projection.hpp:104-109 [GlobalToValue] with the coefficients read from the column of the
      rank [r], which are stored as coeff.hpp writes them (Model_Dofs [GetCoeffFrom]) *)
  Definition value_of (U : state) (r : nat) (g : gcell) (x : vec) : value :=
    fun k => rsum N (fun j => U (r, (K * N * g_id g + (j * K + k))%nat) * g_basis g x j).

  (** a cell with its solution; fem.hpp:264-267 gives the flux in a quadrature point *)
  Definition the_cell (U : state) (r : nat) (g : gcell) : cell :=
    Cell (g_id g) (g_points g) (g_coord g) (g_weight g) (g_basis g) (g_gradients g)
      (value_of U r g) (fun q => FluxMatrix (value_of U r g (g_coord g q))).
  (** a face with the solution on both sides; the exchange of fem.hpp:174 and 180 gives the ghost cell the
      coefficients that its owner has *)
  Definition the_face (U : state) (r : nat) (f : gface) : face :=
    Face (the_cell U r (g_holder f)) (the_cell U (g_rank f) (g_sharer f))
      (g_fpoints f) (g_fcoord f) (g_fweight f) (g_riemann f).
  Definition the_part (U : state) (r : nat) (p : gpart) : part :=
    Part (map (the_cell U r) (g_local_cells p)) (map (the_face U r) (g_local_faces p))
      (map (the_face U r) (g_ghost_faces p)) (fun name => map (the_face U r) (g_boundary_faces p name)).

  (** fem.hpp:150-152 [SetTime] *)
  Definition at_time (s : fem) (t : R) : fem :=
    Fem (solid_wall s) (supersonic_outlet s) (supersonic_inlet s)
      (subsonic_inlet s) (subsonic_outlet s) (smart_boundary s) t.

  Variable conditions_of : fem.
  Variable parts : list gpart.

  (** fem.hpp:173-183 on every rank; 0 where no column is returned, which part_ok excludes *)
  Definition the_residual (t : R) (U : state) : state :=
    fun '(r, a) =>
      match nth_error parts r with
      | None => 0
      | Some p =>
          match Model_DG.GetResidualColumn K N kDegrees (at_time conditions_of t) (the_part U r p) with
          | None => 0
          | Some c => at_ c a
          end
      end.

  (** ** The limiter on the columns of all processes *)

  (** the cells of the whole mesh are numbered; the rank that owns a cell and its number on this rank *)
  Variable cells : list nat.
  Variable owner number : nat -> nat.
  Variable adj : nat -> list nat.
  Variable is_not_smooth : memory coeff -> nat -> bool.
  Variable limit : memory coeff -> nat -> coeff.
  Variable stale : nat -> memory coeff.

  (** fem.hpp:153-161 [SetSolutionColumn]: the coefficients of a cell *)
  Definition coeff_of (U : state) (c : nat) : coeff :=
    fun k j => U (owner c, (K * N * number c + (j * K + k))%nat).
  (** general.hpp:247-250 followed by fem.hpp:162-172 [GetSolutionColumn] *)
  Definition limited (U : state) : state :=
    fun '(r, a) =>
      match find (fun c => (owner c =? r)%nat && (number c =? a / (K * N))%nat)%bool cells with
      | None => U (r, a)
      | Some c =>
          Reconstruct is_not_smooth limit cells adj owner kDegrees stale (coeff_of U) c
            ((a mod (K * N)) mod K)%nat ((a mod (K * N)) / K)%nat
      end.

  (** ** The error of a solution *)

  (** part.hpp:1081-1096 [MeasureL1Error] on one rank *)
  Definition MeasureL1Error (exact_solution : vec -> R -> value) (t : R) (U : state) (r : nat) (p : gpart) : value :=
    fold_left (fun l1_error g =>
      for_q (g_points g) (fun (l1_error : value) q =>
        let value := fun k => value_of U r g (g_coord g q) k - exact_solution (g_coord g q) t k in
        let value := fun k => Rabs (value k) * g_weight g q in
        fun k => l1_error k + value k) l1_error)
      (g_local_cells p) (fun _ => 0).
End Simulation.
