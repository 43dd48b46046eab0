(** Model of the scalar and coupled equations and Riemann solvers of the one-dimensional Python
    package: /repo/python/equation.py lines 7-164, /repo/python/riemann.py lines 11-197 and the
    base classes in /repo/python/concept.py lines 330-440.
    Numbers are real numbers.  An exception (failed assertion, wrong number of arguments, division
    by zero, comparison with Python's None, singular matrix) is [None]. *)
From Coq Require Import Reals List.
From Verif Require Import Arrays Model_Simple.
Import ListNotations.
Open Scope R_scope.

(** ** Scalar equations *)

(** [ELinear a b]: equation.py lines 7-48 [LinearAdvection] ([b] = 0) and
    [LinearAdvectionDiffusion]; [EBurgers k nu]: lines 51-94 [InviscidBurgers] ([nu] = 0) and
    [Burgers] *)
Inductive Equation := ELinear (a b : R) | EBurgers (k nu : R).

(** equation.py lines 11-13 *)
Definition LinearAdvection_init (a_const : R) : Equation := ELinear a_const 0.
(** equation.py lines 34-36 *)
Definition LinearAdvectionDiffusion_init (a_const b_const : R) : Equation :=
  match LinearAdvection_init a_const with
  | ELinear a _ => ELinear a b_const
  | e => e
  end.

(** an argument of a call by position: a number or the type [float] *)
Inductive PyArg := Num (x : R) | TypeFloat.

(** equation.py lines 55-58 [InviscidBurgers.__init__(self, k=1.0)], the arguments after [self] *)
Definition InviscidBurgers_init (args : list PyArg) : option Equation :=
  match args with
  | [] => Some (EBurgers 1 0)
  | [Num k] => if Rgt_dec k 0 then Some (EBurgers k 0) else None
  | _ => None
  end.

(** equation.py lines 79-82 [Burgers.__init__] *)
Definition Burgers_init (k_const nu_const : R) : option Equation :=
  if Rgt_dec k_const 0 then
    if Rge_dec nu_const 0 then
      do e <- InviscidBurgers_init [Num k_const; TypeFloat];
      match e with EBurgers k _ => Some (EBurgers k nu_const) | e => Some e end
    else None
  else None.

(** equation.py lines 20-21 and 65-66 *)
Definition get_convective_flux (e : Equation) (u : R) : R :=
  match e with ELinear a _ => a * u | EBurgers k _ => k * u ^ 2 / 2 end.
(** equation.py lines 23-24 and 68-69 *)
Definition get_convective_speed (e : Equation) (u : R) : R :=
  match e with ELinear a _ => a | EBurgers k _ => k * u end.
(** concept.py lines 366-369, equation.py lines 44-45 and 90-91 *)
Definition get_diffusive_coeff (e : Equation) (u : R) : R :=
  match e with ELinear _ b => b | EBurgers _ nu => nu end.
(** concept.py lines 400-401 *)
Definition get_convective_radius (e : Equation) (u : R) : R := Rabs (get_convective_speed e u).
(** concept.py lines 403-404 *)
Definition get_diffusive_flux (e : Equation) (u du_dx nu_extra : R) : R :=
  (get_diffusive_coeff e u + nu_extra) * du_dx.
(** concept.py lines 406-408 *)
Definition get_diffusive_radius (e : Equation) (u nu_extra h : R) : R :=
  (get_diffusive_coeff e u + nu_extra) / h.

(** ** Scalar Riemann solvers *)

(** a value or Python's [None] *)
Inductive PyVal (A : Type) := Value (a : A) | NoneObject.
Arguments Value {A} a.
Arguments NoneObject {A}.

(** riemann.py lines 16-19; the slopes are set by lines 138-148 *)
Record Solver := mkSolver {
  s_equation : Equation;
  s_left : PyVal R;
  s_right : PyVal R;
  s_slope_left : R;
  s_slope_right : R }.
Definition Solver_init (e : Equation) : Solver := mkSolver e NoneObject NoneObject 0 0.

(** riemann.py lines 110-111 and 138-148 *)
Definition determine_wave_structure (s : Solver) : option Solver :=
  let e := s_equation s in
  match e with
  | ELinear _ _ => Some s
  | EBurgers _ _ =>
      match s_left s, s_right s with
      | Value l, Value r =>
          if Rle_dec l r then
            Some (mkSolver e (Value l) (Value r) (get_convective_speed e l) (get_convective_speed e r))
          else
            let u_mean := (l + r) / 2 in
            let slope := get_convective_speed e u_mean in
            Some (mkSolver e (Value l) (Value r) slope slope)
      | _, _ => None
      end
  end.

(** riemann.py lines 21-24 [set_initial] *)
Definition set_initial (s : Solver) (l r : R) : option Solver :=
  determine_wave_structure
    (mkSolver (s_equation s) (Value l) (Value r) (s_slope_left s) (s_slope_right s)).

(** riemann.py lines 113-117 and 150-157 [_get_value] *)
Definition get_value_at (s : Solver) (slope : R) : option (PyVal R) :=
  match s_equation s with
  | ELinear a _ => if Rle_dec slope a then Some (s_left s) else Some (s_right s)
  | EBurgers _ _ =>
      if Rle_dec slope (s_slope_left s) then Some (s_left s)
      else if Rge_dec slope (s_slope_right s) then Some (s_right s)
      else
        match s_left s, s_right s with
        | Value l, Value r =>
            if Req_EM_T (r - l) 0 then None
            else
              let k := (s_slope_right s - s_slope_left s) / (r - l) in
              if Req_EM_T k 0 then None else Some (Value (slope / k))
        | _, _ => None
        end
  end.

(** riemann.py lines 32-39 [get_value] *)
Definition get_value (s : Solver) (x t : R) : option (PyVal R) :=
  if Req_EM_T t 0 then
    if Rle_dec x 0 then Some (s_left s) else Some (s_right s)
  else get_value_at s (x / t).

(** riemann.py lines 46-52 [get_upwind_flux], with the new state of the solver *)
Definition get_upwind_flux (s : Solver) (l r : R) : option (Solver * R) :=
  do s' <- set_initial s l r;
  do u <- get_value s' 0 1;
  match u with
  | Value u => Some (s', get_convective_flux (s_equation s') u)
  | NoneObject => None
  end.

(** ** Coupled equations *)

(** equation.py lines 101-111: [np.linalg.inv] of a 2x2 matrix fails if it is singular *)
Definition inv2 (r : Mat2) : option Mat2 :=
  let det := m00 r * m11 r - m01 r * m10 r in
  if Req_EM_T det 0 then None
  else Some (mat2 (m11 r / det) (- m01 r / det) (- m10 r / det) (m00 r / det)).
Definition scale2 (k : R) (m : Mat2) : Mat2 := mat2 (k * m00 m) (k * m01 m) (k * m10 m) (k * m11 m).
Definition madd2 (a b : Mat2) : Mat2 :=
  mat2 (m00 a + m00 b) (m01 a + m01 b) (m10 a + m10 b) (m11 a + m11 b).

(** equation.py lines 101-111 [Coupled.__init__]; the names are left out *)
Record Coupled := mkCoupled {
  c_v_0 : Equation; c_v_1 : Equation; c_R : Mat2; c_L : Mat2; c_A_0 : Mat2; c_A_1 : Mat2 }.
Definition Coupled_init (v_0 v_1 : Equation) (r : Mat2) : option Coupled :=
  do l <- inv2 r;
  Some (mkCoupled v_0 v_1 r l
          (mat2 (m00 r * m00 l) (m00 r * m01 l) (m10 r * m00 l) (m10 r * m01 l))
          (mat2 (m01 r * m10 l) (m01 r * m11 l) (m11 r * m10 l) (m11 r * m11 l))).

(** concept.py lines 435-441 [to_characteristics], [from_characteristics], with equation.py lines
    126-127 *)
Definition to_characteristics (c : Coupled) (u : Col2) : Col2 := mul2 (c_L c) u.
Definition from_characteristics (c : Coupled) (v : Col2) : Col2 := mul2 (c_R c) v.

(** equation.py lines 129-133 *)
Definition coupled_eigvals (c : Coupled) (u : Col2) : Col2 :=
  let v := to_characteristics c u in
  (get_convective_speed (c_v_0 c) (fst v), get_convective_speed (c_v_1 c) (snd v)).
(** equation.py lines 122-124 *)
Definition coupled_jacobian (c : Coupled) (u : Col2) : Mat2 :=
  let lambdas := coupled_eigvals c u in
  madd2 (scale2 (fst lambdas) (c_A_0 c)) (scale2 (snd lambdas) (c_A_1 c)).
(** concept.py lines 426-428 *)
Definition coupled_radius (c : Coupled) (u : Col2) : R :=
  let lambdas := coupled_eigvals c u in Rmax (Rabs (fst lambdas)) (Rabs (snd lambdas)).
(** equation.py lines 135-139 *)
Definition coupled_flux (c : Coupled) (u : Col2) : Col2 :=
  let v := to_characteristics c u in
  mul2 (c_R c) (get_convective_flux (c_v_0 c) (fst v), get_convective_flux (c_v_1 c) (snd v)).
(** equation.py lines 141-145 *)
Definition coupled_coeff (c : Coupled) (u : Col2) : Mat2 :=
  let v := to_characteristics c u in
  let nu_0 := get_diffusive_coeff (c_v_0 c) (fst v) in
  let nu_1 := get_diffusive_coeff (c_v_1 c) (snd v) in
  madd2 (scale2 nu_0 (c_A_0 c)) (scale2 nu_1 (c_A_1 c)).
(** equation.py lines 147-154 *)
Definition coupled_diffusive_flux (c : Coupled) (u du nu_extra : Col2) : Col2 :=
  let v := to_characteristics c u in
  let dv := to_characteristics c du in
  mul2 (c_R c) (get_diffusive_flux (c_v_0 c) (fst v) (fst dv) (fst nu_extra),
                get_diffusive_flux (c_v_1 c) (snd v) (snd dv) (snd nu_extra)).
(** equation.py lines 156-161 *)
Definition coupled_diffusive_radius (c : Coupled) (u nu_extra : Col2) (h : R) : R :=
  let v := to_characteristics c u in
  Rmax (get_diffusive_radius (c_v_0 c) (fst v) (fst nu_extra) h)
       (get_diffusive_radius (c_v_1 c) (snd v) (snd nu_extra) h).

(** riemann.py lines 173-177 *)
Record CoupledSolver := mkCoupledSolver {
  cs_v_0 : Solver; cs_v_1 : Solver; cs_equation : Coupled;
  cs_left : PyVal Col2; cs_right : PyVal Col2 }.
Definition CoupledSolver_init (v_0 v_1 : Solver) (r : Mat2) : option CoupledSolver :=
  do e <- Coupled_init (s_equation v_0) (s_equation v_1) r;
  Some (mkCoupledSolver v_0 v_1 e NoneObject NoneObject).

(** riemann.py lines 189-191 *)
Definition coupled_wave_structure (s : CoupledSolver) : option CoupledSolver :=
  do v_0 <- determine_wave_structure (cs_v_0 s);
  do v_1 <- determine_wave_structure (cs_v_1 s);
  Some (mkCoupledSolver v_0 v_1 (cs_equation s) (cs_left s) (cs_right s)).

(** riemann.py lines 182-187 *)
Definition coupled_set_initial (s : CoupledSolver) (u_left u_right : Col2) : option CoupledSolver :=
  let v_left := to_characteristics (cs_equation s) u_left in
  let v_right := to_characteristics (cs_equation s) u_right in
  do v_0 <- set_initial (cs_v_0 s) (fst v_left) (fst v_right);
  do v_1 <- set_initial (cs_v_1 s) (snd v_left) (snd v_right);
  coupled_wave_structure (mkCoupledSolver v_0 v_1 (cs_equation s) (cs_left s) (cs_right s)).

(** riemann.py lines 193-197 *)
Definition coupled_get_value_at (s : CoupledSolver) (slope : R) : option (PyVal Col2) :=
  do v_0 <- get_value_at (cs_v_0 s) slope;
  do v_1 <- get_value_at (cs_v_1 s) slope;
  match v_0, v_1 with
  | Value v_0, Value v_1 => Some (Value (from_characteristics (cs_equation s) (v_0, v_1)))
  | _, _ => None
  end.

(** riemann.py lines 32-39 [get_value], inherited *)
Definition coupled_get_value (s : CoupledSolver) (x t : R) : option (PyVal Col2) :=
  if Req_EM_T t 0 then
    if Rle_dec x 0 then Some (cs_left s) else Some (cs_right s)
  else coupled_get_value_at s (x / t).

(** riemann.py lines 46-52 [get_upwind_flux], inherited *)
Definition coupled_upwind_flux (s : CoupledSolver) (u_left u_right : Col2)
  : option (CoupledSolver * Col2) :=
  do s' <- coupled_set_initial s u_left u_right;
  do u <- coupled_get_value s' 0 1;
  match u with
  | Value u => Some (s', coupled_flux (cs_equation s') u)
  | NoneObject => None
  end.

(** ** Fluxes on interfaces with viscosity *)

(** what an element shows at one of its ends: degree and length of the element, the value, the first
    and the second derivative of its expansion (concept.py lines 316-327) and its extra viscosity
    (concept.py lines 634-644) *)
Record Side (A V : Type) := mkSide {
  d_degree : nat; d_length : R; d_u : A; d_du : A; d_ddu : A; d_extra : V }.
Arguments mkSide {A V}.
Arguments d_degree {A V}. Arguments d_length {A V}. Arguments d_u {A V}.
Arguments d_du {A V}. Arguments d_ddu {A V}. Arguments d_extra {A V}.

(** riemann.py line 14 *)
Definition beta_0 : R := 3.
Definition beta_1 : R := 1 / 12.

(** riemann.py lines 54-60 *)
Definition get_interface_gradient (h_left h_right u_jump du_mean ddu_jump : R) : R :=
  let delta_x := (h_left + h_right) / 2 in
  let du := beta_0 / delta_x * u_jump in
  let du := du + beta_1 * delta_x * ddu_jump in
  du + du_mean.

(** riemann.py lines 82-91: derivatives of elements of low degree are not asked for *)
Definition side_du (s : Side R R) : R := if Nat.ltb 0 (d_degree s) then d_du s else 0.
Definition side_ddu (s : Side R R) : R := if Nat.ltb 1 (d_degree s) then d_ddu s else 0.

(** riemann.py lines 66-98 [get_interface_flux_and_bjump] of a scalar equation *)
Definition get_interface_flux_and_bjump (s : Solver) (left right : Side R R)
  : option (Solver * R * R) :=
  let u_left := d_u left in
  let u_right := d_u right in
  do sf <- get_upwind_flux s u_left u_right;
  let '(s', flux) := sf in
  let e := s_equation s' in
  let extra_viscosity := Rmin (d_extra left) (d_extra right) in
  let total_viscosity := extra_viscosity +
    Rmin (get_diffusive_coeff e u_left) (get_diffusive_coeff e u_right) in
  if Req_EM_T total_viscosity 0 then Some (s', flux, u_left - u_left)
  else
    let u_jump := u_right - u_left in
    let du := get_interface_gradient (d_length left) (d_length right) u_jump
      ((side_du left + side_du right) / 2) (side_ddu right - side_ddu left) in
    let flux := flux - get_diffusive_flux e ((u_left + u_right) / 2) du extra_viscosity in
    Some (s', flux, total_viscosity / 2 * u_jump).

(** an array with one axis or with two *)
Inductive Shape := Vec (v : Col2) | Matrix (m : Mat2).

(** broadcasting: a row added to, or multiplied with, each row of a matrix *)
Definition row_add (v : Col2) (m : Mat2) : Mat2 :=
  mat2 (fst v + m00 m) (snd v + m01 m) (fst v + m10 m) (snd v + m11 m).
Definition row_mul (m : Mat2) (v : Col2) : Mat2 :=
  mat2 (m00 m * fst v) (m01 m * snd v) (m10 m * fst v) (m11 m * snd v).
Definition mmin2 (a b : Mat2) : Mat2 :=
  mat2 (Rmin (m00 a) (m00 b)) (Rmin (m01 a) (m01 b)) (Rmin (m10 a) (m10 b)) (Rmin (m11 a) (m11 b)).
Definition is_zero2 (m : Mat2) : bool :=
  if Req_EM_T (m00 m) 0 then if Req_EM_T (m01 m) 0 then
  if Req_EM_T (m10 m) 0 then if Req_EM_T (m11 m) 0 then true else false else false else false
  else false.

Definition pick (d : bool) (v : Col2) : R := if d then fst v else snd v.
Definition side_of (d : bool) (s : Side Col2 Col2) : Side R R :=
  mkSide (d_degree s) (d_length s) (pick d (d_u s)) (pick d (d_du s)) (pick d (d_ddu s))
    (pick d (d_extra s)).
Definition col_of (f : bool -> R) : Col2 := (f true, f false).

(** riemann.py lines 66-98 [get_interface_flux_and_bjump] of coupled equations: the viscosity is
    the matrix of [get_diffusive_coeff], and [*] multiplies entry by entry *)
Definition coupled_flux_and_bjump (s : CoupledSolver) (left right : Side Col2 Col2)
  : option (CoupledSolver * Col2 * Shape) :=
  let u_left := d_u left in
  let u_right := d_u right in
  do sf <- coupled_upwind_flux s u_left u_right;
  let '(s', flux) := sf in
  let e := cs_equation s' in
  let extra_viscosity := col_of (fun d => Rmin (pick d (d_extra left)) (pick d (d_extra right))) in
  let total_viscosity :=
    row_add extra_viscosity (mmin2 (coupled_coeff e u_left) (coupled_coeff e u_right)) in
  if is_zero2 total_viscosity then
    Some (s', flux, Vec (fst u_left - fst u_left, snd u_left - snd u_left))
  else
    let u_jump := col_of (fun d => pick d u_right - pick d u_left) in
    let du := col_of (fun d =>
      get_interface_gradient (d_length left) (d_length right) (pick d u_jump)
        ((side_du (side_of d left) + side_du (side_of d right)) / 2)
        (side_ddu (side_of d right) - side_ddu (side_of d left))) in
    let g := coupled_diffusive_flux e
      ((fst u_left + fst u_right) / 2, (snd u_left + snd u_right) / 2) du extra_viscosity in
    Some (s', (fst flux - fst g, snd flux - snd g),
          Matrix (row_mul (scale2 (1 / 2) total_viscosity) u_jump)).
