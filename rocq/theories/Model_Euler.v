(** Model of the Euler equations of an ideal gas:
    /repo/include/mini/riemann/euler/ (types.hpp, ausm.hpp, hllc.hpp, eigen.hpp) and
    /repo/include/mini/riemann/rotated/euler.hpp.
    Scalars are real numbers.  The templates over the number of dimensions are modelled at once:
    the momentum components after the first are a list of length [D - 1]. *)
From Coq Require Import Reals List.
Import ListNotations.
Open Scope R_scope.

(** ** types.hpp *)

(** types.hpp lines 17-68 [Tuple] (and [FluxTuple], [Primitives], [Conservatives], lines 113-186):
    mass, momentum X, the other momenta, energy *)
Record Tuple := mkTuple { mass : R; mX : R; mT : list R; energy : R }.

(** types.hpp lines 31-33, 51-53 [momentum] *)
Definition momentum (t : Tuple) : list R := mX t :: mT t.
Definition set_momentum (t : Tuple) (p : list R) : Tuple :=
  mkTuple (mass t) (hd 0 p) (tl p) (energy t).

(** Eigen's [setZero] *)
Definition setZero (t : Tuple) : Tuple := mkTuple 0 0 (map (fun _ => 0) (mT t)) 0.

(** Eigen's [a *= c] and [a += b] *)
Definition scaleT (c : R) (t : Tuple) : Tuple :=
  mkTuple (mass t * c) (mX t * c) (map (fun x => x * c) (mT t)) (energy t * c).
Fixpoint addL (a b : list R) : list R :=
  match a, b with x :: a, y :: b => (x + y) :: addL a b | _, _ => [] end.
Definition addT (s t : Tuple) : Tuple :=
  mkTuple (mass s + mass t) (mX s + mX t) (addL (mT s) (mT t)) (energy s + energy t).

(** sum of squares *)
Fixpoint sumsq (l : list R) : R := match l with [] => 0 | x :: l => x * x + sumsq l end.

(** types.hpp lines 76-78, 87-90, 100-104 [VelocityToMomentum] *)
Definition VelocityToMomentum (rho : R) (t : Tuple) : Tuple :=
  mkTuple (mass t) (mX t * rho) (map (fun x => x * rho) (mT t)) (energy t).
(** types.hpp lines 79-81, 91-94, 105-109 [MomentumToVelocity] *)
Definition MomentumToVelocity (rho : R) (t : Tuple) : Tuple :=
  mkTuple (mass t) (mX t / rho) (map (fun x => x / rho) (mT t)) (energy t).

(** types.hpp lines 169-174 [GetDynamicPressure]; [rho], [u], [p] of a primitive state are its
    [mass], [mX], [energy] (lines 139-168) *)
Definition GetDynamicPressure (w : Tuple) : R :=
  let e_k := mX w * mX w + sumsq (mT w) in
  mass w * (e_k * (1 / 2)).

(** types.hpp lines 196-204 [SetZeroIfNegative] *)
Definition SetZeroIfNegative (w : Tuple) : Tuple :=
  let w := if Rlt_dec (mass w) 0 then setZero w else w in
  if Rlt_dec (energy w) 0 then setZero w else w.

Definition set_energy (t : Tuple) (e : R) : Tuple := mkTuple (mass t) (mX t) (mT t) e.

(** types.hpp lines 240-244 [GetSpeedOfSound] *)
Definition GetSpeedOfSound (gamma : R) (w : Tuple) : R :=
  if Rle_dec (mass w) 0 then 0
  else if Rle_dec (energy w) 0 then 0
  else sqrt (gamma * energy w / mass w).

(** types.hpp lines 246-258 [ConservativeToPrimitive] *)
Definition ConservativeToPrimitive (gamma : R) (U : Tuple) : Tuple :=
  let w := SetZeroIfNegative U in
  if Req_EM_T (mass w) 0 then w
  else
    let w := MomentumToVelocity (mass w) w in
    let w := set_energy w (energy w - GetDynamicPressure w) in
    let w := set_energy w (energy w * (gamma - 1)) in
    SetZeroIfNegative w.

(** types.hpp lines 260-268 [PrimitiveToConservative] *)
Definition PrimitiveToConservative (gamma : R) (w : Tuple) : Tuple :=
  let U := VelocityToMomentum (mass w) w in
  let U := set_energy U (energy U * (1 / (gamma - 1))) in
  set_energy U (energy U + GetDynamicPressure w).

(** types.hpp lines 270-278 [PrimitiveToFlux] *)
Definition PrimitiveToFlux (gamma : R) (w : Tuple) : Tuple :=
  let F := scaleT (mX w) (PrimitiveToConservative gamma w) in
  mkTuple (mass F) (mX F + energy w) (mT F) (energy F + energy w * mX w).

(** [nth 0 (mT t)] and [nth 1 (mT t)] are [momentumY] and [momentumZ] (types.hpp lines 37-44) *)
Definition mY (t : Tuple) : R := nth 0 (mT t) 0.
Definition mZ (t : Tuple) : R := nth 1 (mT t) 0.

(** types.hpp lines 279-290 [GetFluxMatrix]: its three columns *)
Definition GetFluxMatrix (gamma : R) (cv : Tuple) : Tuple * Tuple * Tuple :=
  let pv := ConservativeToPrimitive gamma cv in
  let u := mX pv in let v := mY pv in let w := mZ pv in let p := energy pv in
  let rho_u := mX cv in let rho_v := mY cv in let rho_w := mZ cv in
  let rho_h0 := energy cv + p in
  (mkTuple rho_u (rho_u * u + p) [rho_v * u; rho_w * u] (rho_h0 * u),
   mkTuple rho_v (rho_u * v) [rho_v * v + p; rho_w * v] (rho_h0 * v),
   mkTuple rho_w (rho_u * w) [rho_v * w; rho_w * w + p] (rho_h0 * w)).

(** ** ausm.hpp *)

(** the total enthalpy, lines 50, 115-116, 183-184 and the same for the other side: the squares
    are halved one by one *)
Fixpoint halfsq (l : list R) : R := match l with [] => 0 | x :: l => x * x * (1 / 2) + halfsq l end.
Definition ausm_h (gamma : R) (w : Tuple) : R :=
  let a := GetSpeedOfSound gamma w in
  a * a / (gamma - 1) + mX w * mX w * (1 / 2) + halfsq (mT w).

(** ausm.hpp lines 45-63, 110-129, 178-197 [GetPositiveFlux] *)
Definition GetPositiveFlux (gamma : R) (w : Tuple) : Tuple :=
  let a := GetSpeedOfSound gamma w in
  let mach := mX w / a in
  let h := ausm_h gamma w in
  let flux := mkTuple 1 (mX w) (mT w) h in
  let (mach_positive, p_positive) :=
    if Rge_dec mach (-1) then
      if Rle_dec mach 1 then
        ((mach + 1) * (mach + 1) * (1 / 4), energy w * (mach + 1) * (1 / 2))
      else (mach, energy w)
    else (0, 0) in
  let flux := scaleT (mass w * a * mach_positive) flux in
  mkTuple (mass flux) (mX flux + p_positive) (mT flux) (energy flux).

(** ausm.hpp lines 64-81, 130-149, 198-217 [GetNegativeFlux] *)
Definition GetNegativeFlux (gamma : R) (w : Tuple) : Tuple :=
  let a := GetSpeedOfSound gamma w in
  let mach := mX w / a in
  let h := ausm_h gamma w in
  let flux := mkTuple 1 (mX w) (mT w) h in
  let (mach_negative, p_negative) :=
    if Rle_dec mach 1 then
      if Rge_dec mach (-1) then
        (- (mach - 1) * (mach - 1) * (1 / 4), - energy w * (mach - 1) * (1 / 2))
      else (mach, energy w)
    else (0, 0) in
  let flux := scaleT (mass w * a * mach_negative) flux in
  mkTuple (mass flux) (mX flux + p_negative) (mT flux) (energy flux).

(** ausm.hpp lines 33-38, 98-103, 166-171 [GetFluxUpwind] *)
Definition Ausm_GetFluxUpwind (gamma : R) (left right : Tuple) : Tuple :=
  addT (GetPositiveFlux gamma left) (GetNegativeFlux gamma right).

(** ** hllc.hpp *)

(** hllc.hpp lines 72-80, 154-162 [GetQ] *)
Definition GetQ (gamma p_estimate p_k : R) : R :=
  if Rle_dec p_estimate p_k then 1
  else sqrt (1 + (gamma + 1) / 2 * (p_estimate / p_k - 1) / gamma).

(** hllc.hpp lines 56-71, 138-153 [Initialize]: [wave_left_], [wave_star_], [wave_right_] *)
Definition Hllc_Initialize (gamma : R) (left right : Tuple) : R * R * R :=
  let rho_average := (mass left + mass right) / 2 in
  let a_left := GetSpeedOfSound gamma left in
  let a_right := GetSpeedOfSound gamma right in
  let a_average := (a_left + a_right) / 2 in
  let p_pvrs := (energy left + energy right
                 - (mX right - mX left) * rho_average * a_average) / 2 in
  let p_estimate := Rmax 0 p_pvrs in
  let wave_left := mX left - a_left * GetQ gamma p_estimate (energy left) in
  let wave_right := mX right + a_right * GetQ gamma p_estimate (energy right) in
  let wave_star :=
    (energy right - energy left + mass left * mX left * (wave_left - mX left)
     - mass right * mX right * (wave_right - mX right)) /
    (mass left * (wave_left - mX left) - mass right * (wave_right - mX right)) in
  (wave_left, wave_star, wave_right).

(** hllc.hpp lines 81-97, 163-181 [GetStarFlux] *)
Definition GetStarFlux (gamma wave_star : R) (state : Tuple) (wave_k : R) : Tuple :=
  let flux := PrimitiveToFlux gamma state in
  let en := energy state / (gamma - 1)
            + mass state * (mX state * mX state + sumsq (mT state)) * (1 / 2) in
  let temp := mass state * (wave_k - mX state) / (wave_k - wave_star) in
  let u_k := PrimitiveToConservative gamma state in
  let e := en / mass state + (wave_star - mX state)
           * (wave_star + energy state / (mass state * (wave_k - mX state))) in
  let u_star_k := mkTuple temp (wave_star * temp) (map (fun v => v * temp) (mT state)) (e * temp) in
  let diff := addT u_star_k (scaleT (-1) u_k) in
  addT flux (scaleT wave_k diff).

(** hllc.hpp lines 33-46, 114-127 [GetFluxUpwind] *)
Definition Hllc_GetFluxUpwind (gamma : R) (left right : Tuple) : Tuple :=
  let '(wave_left, wave_star, wave_right) := Hllc_Initialize gamma left right in
  if Rle_dec 0 wave_left then PrimitiveToFlux gamma left
  else if Rle_dec wave_right 0 then PrimitiveToFlux gamma right
  else if Rle_dec 0 wave_star then GetStarFlux gamma wave_star left wave_left
  else GetStarFlux gamma wave_star right wave_right.

(** ** rotated/euler.hpp *)

Fixpoint dotL (a b : list R) : R :=
  match a, b with x :: a, y :: b => x * y + dotL a b | _, _ => 0 end.

(** rotated/euler.hpp line 31 [Frame]: the D vectors, the first being the normal (line 42) *)
Definition Frame := list (list R).
Definition normal (f : Frame) : list R := hd [] f.

(** rotated/euler.hpp lines 66-72, 80-88 [GlobalToNormal] *)
Definition GlobalToNormal (f : Frame) (t : Tuple) : Tuple :=
  set_momentum t (map (fun v => dotL (momentum t) v) f).

(** rotated/euler.hpp lines 73-79, 89-97 [NormalToGlobal] *)
Definition NormalToGlobal (f : Frame) (t : Tuple) : Tuple :=
  set_momentum t (map (fun i => dotL (momentum t) (map (fun v => nth i v 0) f)) (seq 0 (length f))).

(** rotated/euler.hpp lines 111-121 [GetFluxUpwind], for any unrotated solver *)
Definition Rotated_GetFluxUpwind (gamma : R) (solver : Tuple -> Tuple -> Tuple) (f : Frame)
    (left right : Tuple) : Tuple :=
  let l := GlobalToNormal f (ConservativeToPrimitive gamma left) in
  let r := GlobalToNormal f (ConservativeToPrimitive gamma right) in
  NormalToGlobal f (solver l r).

(** the three lines shared by rotated/euler.hpp 106-108, 131-133, 151-153, 168-170 *)
Definition flux_of_primitive (gamma : R) (f : Frame) (w : Tuple) : Tuple :=
  NormalToGlobal f (PrimitiveToFlux gamma (GlobalToNormal f w)).

(** rotated/euler.hpp lines 104-110 [GetFluxOnSupersonicInlet], 129-135 [...Outlet] *)
Definition GetFluxOnSupersonicInlet (gamma : R) (f : Frame) (U : Tuple) : Tuple :=
  flux_of_primitive gamma f (ConservativeToPrimitive gamma U).
Definition GetFluxOnSupersonicOutlet (gamma : R) (f : Frame) (U : Tuple) : Tuple :=
  flux_of_primitive gamma f (ConservativeToPrimitive gamma U).

(** rotated/euler.hpp lines 122-128 [GetFluxOnSolidWall] *)
Definition GetFluxOnSolidWall (gamma : R) (f : Frame) (U : Tuple) : Tuple :=
  let w := ConservativeToPrimitive gamma U in
  NormalToGlobal f (mkTuple 0 (energy w) (map (fun _ => 0) (mT U)) 0).

(** rotated/euler.hpp lines 138-150: the boundary state of [GetFluxOnSubsonicInlet] *)
Definition SubsonicInlet_state (gamma : R) (n : list R) (wi wo : Tuple) : Tuple :=
  let u_nu_o := dotL (momentum wo) n in
  let u_nu_i := dotL (momentum wi) n in
  let u_nu_jump := u_nu_o - u_nu_i in
  let a_i := GetSpeedOfSound gamma wi in
  let rho_a_i := mass wi * (if Rgt_dec u_nu_o 0 then a_i else - a_i) in
  let p_b := (energy wi + energy wo + rho_a_i * u_nu_jump) * (1 / 2) in
  let p_jump := energy wo - p_b in
  let u_b := addL (momentum wo) (map (fun x => (p_jump / rho_a_i) * x) n) in
  mkTuple (mass wo - p_jump / (a_i * a_i)) (hd 0 u_b) (tl u_b) p_b.

(** rotated/euler.hpp lines 136-155 [GetFluxOnSubsonicInlet] *)
Definition GetFluxOnSubsonicInlet (gamma : R) (f : Frame) (Ui Uo : Tuple) : Tuple :=
  flux_of_primitive gamma f
    (SubsonicInlet_state gamma (normal f) (ConservativeToPrimitive gamma Ui) (ConservativeToPrimitive gamma Uo)).

(** rotated/euler.hpp lines 158-167: the boundary state of [GetFluxOnSubsonicOutlet] *)
Definition SubsonicOutlet_state (gamma : R) (n : list R) (wi wo : Tuple) : Tuple :=
  let p_b := energy wo in
  let p_jump := energy wi - p_b in
  let a_i := GetSpeedOfSound gamma wi in
  let u_nu_i := dotL (momentum wi) n in
  let rho_a_i := mass wi * (if Rgt_dec u_nu_i 0 then a_i else - a_i) in
  let u_b := addL (momentum wi) (map (fun x => (p_jump / rho_a_i) * x) n) in
  mkTuple (mass wi - p_jump / (a_i * a_i)) (hd 0 u_b) (tl u_b) p_b.

(** rotated/euler.hpp lines 156-172 [GetFluxOnSubsonicOutlet] *)
Definition GetFluxOnSubsonicOutlet (gamma : R) (f : Frame) (Ui Uo : Tuple) : Tuple :=
  flux_of_primitive gamma f
    (SubsonicOutlet_state gamma (normal f) (ConservativeToPrimitive gamma Ui) (ConservativeToPrimitive gamma Uo)).

(** rotated/euler.hpp lines 173-193 [GetFluxOnSmartBoundary] *)
Definition GetFluxOnSmartBoundary (gamma : R) (f : Frame) (Ui Uo : Tuple) : Tuple :=
  let w := ConservativeToPrimitive gamma Ui in
  let a := GetSpeedOfSound gamma w in
  let u_nu := dotL (momentum w) (normal f) in
  if Rlt_dec u_nu 0 then
    if Rlt_dec (u_nu + a) 0 then GetFluxOnSupersonicInlet gamma f Uo
    else GetFluxOnSubsonicInlet gamma f Ui Uo
  else
    if Rgt_dec (u_nu - a) 0 then GetFluxOnSupersonicOutlet gamma f Ui
    else GetFluxOnSubsonicOutlet gamma f Ui Uo.

(** ** eigen.hpp *)

(** eigen.hpp lines 27-56 [EigenMatrices]: the columns of [R] and of [L] as lists *)
Definition EigenMatrices (gamma : R) (w : Tuple) (nu mu pi : R * R * R) : list (list R) * list (list R) :=
  let '(nx, ny, nz) := nu in let '(mx, my, mz) := mu in let '(px, py, pz) := pi in
  let u_x := mX w in let u_y := mY w in let u_z := mZ w in
  let u_nu := u_x * nx + u_y * ny + u_z * nz in
  let u_mu := u_x * mx + u_y * my + u_z * mz in
  let u_pi := u_x * px + u_y * py + u_z * pz in
  let a := GetSpeedOfSound gamma w in
  let ek := (u_x * u_x + u_y * u_y + u_z * u_z) / 2 in
  let e0 := a * a * (1 / (gamma - 1)) in
  let h0 := e0 + ek in
  let b1 := 1 / e0 in
  let b2 := b1 * ek in
  ([ [1; u_x - a * nx; u_y - a * ny; u_z - a * nz; h0 - a * u_nu];
     [1; u_x; u_y; u_z; ek];
     [0; mx; my; mz; u_mu];
     [0; px; py; pz; u_pi];
     [1; u_x + a * nx; u_y + a * ny; u_z + a * nz; h0 + a * u_nu] ],
   [ [(b2 + u_nu / a) / 2; 1 - b2; - u_mu; - u_pi; (b2 - u_nu / a) / 2];
     [- (b1 * u_x + nx / a) / 2; b1 * u_x; mx; px; - (b1 * u_x - nx / a) / 2];
     [- (b1 * u_y + ny / a) / 2; b1 * u_y; my; py; - (b1 * u_y - ny / a) / 2];
     [- (b1 * u_z + nz / a) / 2; b1 * u_z; mz; pz; - (b1 * u_z - nz / a) / 2];
     [b1 / 2; - b1; 0; 0; b1 / 2] ]).
