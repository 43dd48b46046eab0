(** Model of the data of demonstration programs: states, fronts and exact solutions of
    /repo/demo/euler/double_mach.cpp, /repo/demo/linear/single.cpp and /repo/demo/linear/multiple.cpp.
    Their main loops are in Model_Driver.v.  Not modelled: names of boundary sections. *)
From Coq Require Import Reals List.
From Verif Require Import Vec3 Model_Euler Model_Simple.
Import ListNotations.
Open Scope R_scope.

(** ** double_mach.cpp *)

(** double_mach.cpp lines 5-7, 19: the constants and the global variables that the others are computed from *)
Record Mach := mkMach { kGammaPlus : R; kGamma : R; kGammaMinus : R;
  rho_before : R; p_before : R; m_before : R; a_before : R; x_gap : R }.

(** double_mach.cpp lines 5-7, 19: their values *)
Definition double_mach : Mach := mkMach (24/10) (14/10) (4/10) (14/10) 1 10 1 (1/6).

(** double_mach.cpp line 7 *)
Definition u_nu (c : Mach) : R := m_before c * a_before c.
(** double_mach.cpp lines 8-9 *)
Definition rho_after (c : Mach) : R :=
  rho_before c * (m_before c * m_before c * kGammaPlus c / 2) / (1 + m_before c * m_before c * kGammaMinus c / 2).
(** double_mach.cpp lines 10-11 *)
Definition p_after (c : Mach) : R :=
  p_before c * (m_before c * m_before c * kGamma c - kGammaMinus c / 2) / (kGammaPlus c / 2).
(** double_mach.cpp line 12 *)
Definition u_n_after (c : Mach) : R := u_nu c * (rho_after c - rho_before c) / rho_after c.
(** double_mach.cpp line 13 *)
Definition tan_60 : R := sqrt 3.
Definition cos_30 : R := tan_60 * (5/10).
Definition sin_30 : R := 5/10.
(** double_mach.cpp line 14 *)
Definition u_after (c : Mach) : R := u_n_after c * cos_30.
Definition v_after (c : Mach) : R := u_n_after c * (- sin_30).
(** double_mach.cpp lines 15-16 *)
Definition primitive_after (c : Mach) : Tuple := mkTuple (rho_after c) (u_after c) [v_after c; 0] (p_after c).
Definition primitive_before (c : Mach) : Tuple := mkTuple (rho_before c) 0 [0; 0] (p_before c).
(** double_mach.cpp lines 17-18; [gamma] is the ratio of [Gas], sourceless.hpp *)
Definition value_after (gamma : R) (c : Mach) : Tuple := PrimitiveToConservative gamma (primitive_after c).
Definition value_before (gamma : R) (c : Mach) : Tuple := PrimitiveToConservative gamma (primitive_before c).
(** double_mach.cpp lines 21-24 [MyIC] *)
Definition MyIC (gamma : R) (c : Mach) (xyz : vec) : Tuple :=
  if Rlt_dec ((vx xyz - x_gap c) * tan_60) (vy xyz) then value_after gamma c else value_before gamma c.
(** double_mach.cpp line 27 *)
Definition u_x (c : Mach) : R := u_nu c / cos_30.
(** double_mach.cpp lines 28-31 [moving_shock] *)
Definition moving_shock (gamma : R) (c : Mach) (xyz : vec) (t : R) : Tuple :=
  if Rlt_dec ((vx xyz - (x_gap c + u_x c * t)) * tan_60) (vy xyz) then value_after gamma c else value_before gamma c.

(** ** linear/single.cpp *)

(** single.cpp lines 77, 83: the coefficients of the equation *)
Definition single_a_x : R := -10.
Definition single_nu : R := 5/100.
(** single.cpp lines 126-137 [initial_condition] *)
Definition single_ic (x : R) : R :=
  if Rgt_dec x 3 then 1 else if Rgt_dec x 2 then sin ((x - 25/10) * 9 * (31415926 / 10000000)) else -1.
(** single.cpp lines 138-141 [exact_solution] *)
Definition single_exact (x t : R) : R := single_ic (x - single_a_x * t).

(** ** linear/multiple.cpp *)

(** multiple.cpp line 71 [a_x] *)
Definition multiple_a_x : Mat := fun i j =>
  match i, j with 0%nat, 0%nat => 6 | 0%nat, 1%nat => -2 | 1%nat, 0%nat => -2 | _, _ => 6 end.
(** multiple.cpp lines 104-105 *)
Definition value_right : Col := fun i => match i with 0%nat => 12 | _ => -4 end.
Definition value_left : Col := fun _ => 0.
Definition x_0 : R := 0.
(** multiple.cpp lines 106-108 [initial_condition] *)
Definition multiple_ic (left right : Col) (x : R) : Col := if Rgt_dec x x_0 then right else left.
(** multiple.cpp lines 114-121 [exact_solution]; [eig_vals], [eig_rows] and [eig_cols] are what lines 110-113 get from
    Eigen: eigenvalues, eigenvectors (as the columns of [eig_rows]) and the inverse of [eig_rows] *)
Definition multiple_exact (K : nat) (eig_vals : Col) (eig_rows eig_cols : Mat) (left right : Col) (x t : R) : Col :=
  fun j => sum K (fun i =>
    let state := if Rgt_dec (x - x_0) (eig_vals i * t) then right else left in
    eig_cols j i * sum K (fun k => eig_rows i k * state k)).
