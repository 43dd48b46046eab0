(** Model of artificial viscosity of the Python package: viscosity.py, lines 31-66, 69-98, 100-119, 194-233, 298-357, 391-398, 437-453, 468-488,
    508-511, 550-558 and 580-606, for scalar equations. *)
From Coq Require Import Reals List Arith ZArith Bool.
From Verif Require Import Arrays RSum Model_PyEuler Model_PyIntegrator Model_PyDetector.
Import ListNotations.
Open Scope R_scope.

(** ** [Persson2006] (viscosity.py 31-66) *)
(** [_get_constant_coeff] (viscosity.py 47-60) for positive degrees; [log10] of zero is minus infinity *)
Definition persson_nu (kappa : R) (degree : nat) (length smoothness : R) : R :=
  let s_0 := -4 * log10 (INR degree) in
  let s_gap := log10 smoothness - s_0 in
  let nu := length / INR degree in
  if Rle_dec smoothness 0 then 0 else
  if Rlt_dec kappa s_gap then nu else
  if Rlt_dec (- kappa) s_gap then nu * (1 / 2 * (1 + sin (s_gap / kappa * PI / 2))) else 0.

(** ** [Energy] (viscosity.py 69-357) *)
(** [_jumps_to_energy] of a scalar (viscosity.py 80-98) *)
Definition jumps_to_energy (weights jumps : nat -> R) (indices : list nat) : R :=
  fold_left (fun energy k => energy + weights k * jumps k ^ 2 / 2) indices 0.
(** jumps against [f] at the points of one half (viscosity.py 209-214, 224-229): in the middle divided by [sqrt(2)] *)
Definition half_jumps (n mid : nat) (points values : nat -> R) (f : R -> R) (k : nat) : R :=
  let jump := values k - f (points k) in
  if Nat.odd n && (k =? mid)%nat then jump / sqrt 2 else jump.
(** [_get_lazy_half_energy] (viscosity.py 194-233); a neighbor is given by its values and the values of its approximation by a straight line *)
Definition half_energy (n mid : nat) (weights points values : nat -> R) (indices : list nat) (that : option ((R -> R) * (R -> R))) : R :=
  match that with
  | Some (high, low) => Rmin (jumps_to_energy weights (half_jumps n mid points values low) indices)
                             (jumps_to_energy weights (half_jumps n mid points values high) indices)
  | None => 0
  end.
Definition lazy_half_energy (n : nat) (weights points values : nat -> R) (left right : option ((R -> R) * (R -> R))) : R :=
  half_energy n ((1 + n) / 2 - 1) weights points values (seq 0 ((1 + n) / 2)) left +
  half_energy n (n / 2) weights points values (seq (n / 2) (n - n / 2)) right.
(** [_get_dissipation_rate] with one component (viscosity.py 108-119); [mat_d] is the cached product *)
Definition dissipation_rate (n : nat) (mat_d : nat -> nat -> R) (column : nat -> R) : option R :=
  let dissipation := rsum n (fun i => column i * rsum n (fun j => mat_d i j * column j)) in
  if Rlt_dec dissipation 0 then Some dissipation else None.
(** [_get_max_nu] (viscosity.py 316-322); [radius] is [get_convective_radius] *)
Definition max_nu (n : nat) (radius : R -> R) (values : nat -> R) (length : R) (degree : nat) : option R :=
  let a_max := fold_left (fun a i => Rmax a (radius (values i))) (seq 0 n) 0 in
  do ratio <- div length (INR degree); Some (ratio * a_max).
(** [_get_constant_coeff] of a scalar (viscosity.py 324-335) *)
Definition constant_coeff (tau : R) (n : nat) (mat_d : nat -> nat -> R) (weights points values : nat -> R) (left right : option ((R -> R) * (R -> R)))
    (radius : R -> R) (length : R) (degree : nat) : option R :=
  do dissipation <- dissipation_rate n mat_d values;
  let oscillation_energy := lazy_half_energy n weights points values left right in
  let nu := oscillation_energy / (- dissipation * tau) in
  do nu_max <- max_nu n radius values length degree;
  Some (Rmin nu nu_max).
(** [_get_nu] (viscosity.py 337-346); the dictionary [_index_to_nu] *)
Definition get_nu (index_to_nu : nat -> option R) (i_cell : Z) (n_cell : nat) : option R :=
  if negb ((-1 <=? i_cell)%Z && (i_cell <=? Z.of_nat n_cell)%Z) then None else
  let i_cell := if (i_cell <? 0)%Z then (i_cell + Z.of_nat n_cell)%Z else i_cell in
  let i_cell := if (i_cell =? Z.of_nat n_cell)%Z then 0%Z else i_cell in
  Some (match index_to_nu (Z.to_nat i_cell) with Some nu => nu | None => 0 end).

(** ** [Quadratic] (viscosity.py 359-487) *)
(** [_build_a_on_interfaces] (viscosity.py 391-398) *)
Definition build_a_on_interfaces (c : Coordinate) (i j : nat) : R :=
  let h := length_of c / 2 in
  match i, j with
  | O, O => 1 | O, _ => 0
  | _, O => 1
  | 1%nat, 1%nat => - h | _, 1%nat => h
  | _, _ => h * h
  end.
(** [_common] and [b] (viscosity.py 468-485) *)
Definition quadratic_b (index_to_nu : nat -> option R) (n_cell i_cell : nat) (left right : bool) : option (R * R * R) :=
  do nu_const <- index_to_nu i_cell;
  do b1 <- (if left then do nu <- get_nu index_to_nu (Z.of_nat i_cell - 1) n_cell; Some ((nu_const + nu) / 2) else Some nu_const);
  do b2 <- (if right then do nu <- get_nu index_to_nu (Z.of_nat i_cell + 1) n_cell; Some ((nu_const + nu) / 2) else Some nu_const);
  Some (nu_const, b1, b2).
(** [_get_callable_scalar] (viscosity.py 437-453); the inverse is computed anew instead of being kept for the cell *)
Definition quadratic_value (inv : nat -> (nat -> nat -> R) -> option (nat -> nat -> R)) (c : Coordinate) (b : R * R * R) (x_global : R) : option R :=
  let '(b0, b1, b2) := b in
  if Req_EM_T b0 (Rmax (Rmax b0 b1) b2) then
    do a_inv <- inv 3%nat (build_a_on_interfaces c);
    let k i := a_inv i 0%nat * b0 + a_inv i 1%nat * b1 + a_inv i 2%nat * b2 in
    let x := x_global - x_center c in
    Some (Rmax 0 (k 0%nat + k 1%nat * x + k 2%nat * x * x))
  else do r <- div ((b2 - b1) * (x_global - x_left c)) (length_of c); Some (b1 + r).
Definition quadratic_coeff inv (index_to_nu : nat -> option R) (n_cell i_cell : nat) (left right : bool) (c : Coordinate) (x : R) : option R :=
  do b <- quadratic_b index_to_nu n_cell i_cell left right; quadratic_value inv c b x.

(** ** [Linear] (viscosity.py 490-606) *)
(** [_get_upwind_scalar] (viscosity.py 550-558) *)
Definition upwind_scalar (speed left right : R) : R :=
  if Rlt_dec 0 speed then left else if Rlt_dec speed 0 then right else (left + right) / 2.
(** [_get_callable_coeff] of a scalar (viscosity.py 580-606) with [_get_convex_ratios] (viscosity.py 508-511); [left_speed] and [right_speed] are the
    cached eigenvalues of the faces *)
Definition linear_coeff (index_to_nu : nat -> option R) (n_cell i_cell : nat) (left right : bool) (left_speed right_speed : R) (c : Coordinate) (x : R) : option R :=
  do nu_const <- index_to_nu i_cell;
  do left_nu <- get_nu index_to_nu (Z.of_nat i_cell - 1) n_cell;
  let left_nu := if left then left_nu else left_nu * 0 in
  let left_nu := upwind_scalar left_speed left_nu nu_const in
  do right_nu <- get_nu index_to_nu (Z.of_nat i_cell + 1) n_cell;
  let right_nu := if right then right_nu else right_nu * 0 in
  let right_nu := upwind_scalar right_speed nu_const right_nu in
  do r <- div (x - x_left c) (length_of c);
  Some (left_nu * (1 - r) + right_nu * r).
