(** Model of the exact Riemann solver of the Euler equations:
    /repo/include/mini/riemann/euler/exact.hpp.
    Scalars are real numbers; a failed assertion is [None], and so is a loop that is still running
    after [fuel] rounds. *)
From Coq Require Import Reals List.
From Verif Require Import Arrays Model_Euler.
Import ListNotations.
Open Scope R_scope.

(** [std::pow] for a base that is not negative and, if the base is 0, a positive exponent *)
Definition powR (x y : R) : R := if Req_EM_T x 0 then 0 else Rpower x y.

(** exact.hpp lines 15-46 [PassiveScalars::Set] *)
Definition PassiveScalars_Set (state : Tuple) (star_u : R) (left right : Tuple) : Tuple :=
  mkTuple (mass state) (mX state) (if Rgt_dec star_u 0 then mT left else mT right) (energy state).

(** exact.hpp lines 163-174 [FindRoot]: the first loop *)
Fixpoint FindRoot_halve (f : R -> option R) (fuel : nat) (x : R) : option R :=
  match fuel with
  | O => None
  | S fuel =>
      do fx <- f x;
      if Rgt_dec fx 0 then FindRoot_halve f fuel (x * (1 / 2)) else Some x
  end.

(** the second loop *)
Fixpoint FindRoot_newton (f f_prime : R -> option R) (eps : R) (fuel : nat) (x : R) : option R :=
  match fuel with
  | O => None
  | S fuel =>
      do fx <- f x;
      if Rlt_dec fx (- eps) then
        do divisor <- f_prime x;
        if Req_EM_T divisor 0 then None
        else FindRoot_newton f f_prime eps fuel (x - fx / divisor)
      else Some x
  end.

(** exact.hpp lines 163-174 [FindRoot] *)
Definition FindRoot (f f_prime : R -> option R) (eps : R) (fuel : nat) (x : R) : option R :=
  do x <- FindRoot_halve f fuel x;
  do x <- FindRoot_newton f f_prime eps fuel x;
  do fx <- f x;
  if Rlt_dec (Rabs fx) eps then Some x else None.

(** exact.hpp line 163: the default tolerance *)
Definition root_eps : R := / 10 ^ 8.

(** exact.hpp lines 216-218 [SpeedChange::P], with [p_const_] of line 180 *)
Definition SpeedChange_P (gamma p_before p_after : R) : R :=
  (gamma + 1) / 2 * p_after + p_before * ((gamma - 1) / 2).

(** exact.hpp lines 183-196 [SpeedChange::operator()] *)
Definition SpeedChange (gamma : R) (before : Tuple) (p_after : R) : option R :=
  let rho_before := mass before in
  let p_before := energy before in
  let a_before := if Req_EM_T (mass before) 0 then 0 else GetSpeedOfSound gamma before in
  if Rlt_dec p_after 0 then None
  else if Rge_dec p_after p_before then
    let divisor := sqrt (rho_before * SpeedChange_P gamma p_before p_after) in
    if Req_EM_T divisor 0 then None else Some ((p_after - p_before) / divisor)
  else
    let e := (gamma - 1) / 2 / gamma in
    let value := powR (p_after / p_before) e - 1 in
    Some (value * (2 / (gamma - 1) * a_before)).

(** exact.hpp lines 197-213 [SpeedChange::Prime] *)
Definition SpeedChange_Prime (gamma : R) (before : Tuple) (p_after : R) : option R :=
  let rho_before := mass before in
  let p_before := energy before in
  let a_before := if Req_EM_T (mass before) 0 then 0 else GetSpeedOfSound gamma before in
  if Rlt_dec p_after 0 then None
  else if Rge_dec p_after p_before then
    let p := SpeedChange_P gamma p_before p_after in
    let value := (gamma + 1) / 4 * (p_before - p_after) in
    let divisor := sqrt (rho_before * p) in
    if Req_EM_T divisor 0 then None else Some ((1 + value / p) / divisor)
  else
    let e := - ((gamma + 1) / 2) / gamma in
    let divisor := rho_before * a_before in
    if Req_EM_T divisor 0 then None else Some (powR (p_after / p_before) e / divisor).

(** which wave: [kField] 1 or 3 *)
Inductive field := Wave1 | Wave3.

(** exact.hpp lines 228-232 the constructor of [Shock] *)
Definition Shock_u (before after : Tuple) : R :=
  let divisor := (mX after - mX before) * mass before in
  mX before + (if Req_EM_T divisor 0 then mX before else (energy after - energy before) / divisor).

(** exact.hpp lines 240-241 [TimeAxisAfterShock] *)
Definition TimeAxisAfterShock (k : field) (u : R) : bool :=
  match k with
  | Wave1 => if Rlt_dec u 0 then true else false
  | Wave3 => if Rgt_dec u 0 then true else false
  end.

(** exact.hpp lines 242-256 [PrimitiveNearShock] *)
Definition PrimitiveNearShock (k : field) (before after : Tuple) : option Tuple :=
  let u := Shock_u before after in
  if TimeAxisAfterShock k u then
    let divisor := mX after - u in
    if Req_EM_T divisor 0 then None
    else Some (mkTuple (mass before * ((mX before - u) / divisor)) (mX after) (mT after) (energy after))
  else Some before.

(** exact.hpp lines 277-288 [PrimitiveInsideExpansion] *)
Definition PrimitiveInsideExpansion (gamma gri_1 gri_2 : R) : Tuple :=
  let r := (gamma - 1) / (gamma + 1) in
  let a := r * gri_2 in
  let a_square := a * a in
  let rho := powR (a_square / gri_1 * (1 / gamma)) (1 / (gamma - 1)) in
  mkTuple rho a [] (a_square * rho * (1 / gamma)).

(** exact.hpp lines 260-263 [AddOrMinus] *)
Definition AddOrMinus (k : field) (x y : R) : R := match k with Wave1 => x + y | Wave3 => x - y end.

(** exact.hpp lines 299-314 [PrimitiveNearExpansion], with [Expansion] of lines 268-275 and the two
    predicates of lines 289-298 inlined *)
Definition PrimitiveNearExpansion (gamma : R) (k : field) (before after : Tuple) : option Tuple :=
  let a_before := GetSpeedOfSound gamma before in
  let gri_1 := energy before / powR (mass before) gamma in
  let gri_2 := AddOrMinus k (mX before) (2 / (gamma - 1) * a_before) in
  let a_after := AddOrMinus k a_before ((gamma - 1) / 2 * (mX before - mX after)) in
  let axis_after := match k with
    | Wave1 => if Rlt_dec (mX after - a_after) 0 then true else false
    | Wave3 => if Rgt_dec (mX after + a_after) 0 then true else false
    end in
  let axis_before := match k with
    | Wave1 => if Rgt_dec (mX before - a_before) 0 then true else false
    | Wave3 => if Rlt_dec (mX before + a_before) 0 then true else false
    end in
  if axis_after then
    let divisor := a_after * a_after in
    if Req_EM_T divisor 0 then None
    else Some (mkTuple (gamma * energy after / divisor) (mX after) (mT after) (energy after))
  else if axis_before then Some before
  else Some (PrimitiveInsideExpansion gamma gri_1 gri_2).

Definition zero_tuple : Tuple := mkTuple 0 0 [] 0.

(** exact.hpp lines 315-342 [PrimitiveNearVacuum] *)
Definition PrimitiveNearVacuum (gamma : R) (left right : Tuple) : Tuple :=
  let left_a := GetSpeedOfSound gamma left in
  if Rgt_dec (mX left) left_a then left
  else
    let right_a := GetSpeedOfSound gamma right in
    if Rlt_dec (mX right + right_a) 0 then right
    else
      let gri_1 := energy left / powR (mass left) gamma in
      let gri_2 := mX left + left_a * (2 / (gamma - 1)) in
      if Rge_dec gri_2 0 then PrimitiveInsideExpansion gamma gri_1 gri_2
      else
        let gri_1 := energy right / powR (mass right) gamma in
        let gri_2 := mX right - right_a * (2 / (gamma - 1)) in
        if Rlt_dec gri_2 0 then PrimitiveInsideExpansion gamma gri_1 gri_2
        else zero_tuple.

(** exact.hpp lines 131-136: the pressure function and its derivative *)
Definition pressure_function (gamma : R) (left right : Tuple) (p : R) : option R :=
  do l <- SpeedChange gamma left p;
  do r <- SpeedChange gamma right p;
  Some (l + r + (mX right - mX left)).
Definition pressure_prime (gamma : R) (left right : Tuple) (p : R) : option R :=
  do l <- SpeedChange_Prime gamma left p;
  do r <- SpeedChange_Prime gamma right p;
  Some (l + r).

(** exact.hpp lines 84-160, the private [GetPrimitiveUpwind]: the state on the time axis and the new
    value of the member [star_u] (line 62) *)
Definition GetPrimitiveUpwind_private (fuel : nat) (gamma star_u : R) (left right : Tuple)
    : option (Tuple * R) :=
  if Rgt_dec (mass left) 0 then
    if Rgt_dec (mass right) 0 then
      (* line 181 *)
      if Rlt_dec (energy left) 0 then None else if Rlt_dec (energy right) 0 then None else
      let f := pressure_function gamma left right in
      let f_prime := pressure_prime gamma left right in
      do f0 <- f 0;
      if Rlt_dec f0 0 then
        do star_p <- FindRoot f f_prime root_eps fuel (energy left);
        do change_right <- SpeedChange gamma right star_p;
        do change_left <- SpeedChange gamma left star_p;
        let u := 1 / 2 * (mX right + change_right + mX left - change_left) in
        (* the density is set later, the other components by [PassiveScalars] *)
        let star := mkTuple 0 u [] star_p in
        do result <-
          (if Rlt_dec 0 u then
            if Rge_dec star_p (energy left) then PrimitiveNearShock Wave1 left star
            else PrimitiveNearExpansion gamma Wave1 left star
          else
            if Rge_dec star_p (energy right) then PrimitiveNearShock Wave3 right star
            else PrimitiveNearExpansion gamma Wave3 right star);
        Some (result, u)
      else Some (PrimitiveNearVacuum gamma left right, star_u)
    else
      let a_left := GetSpeedOfSound gamma left in
      if Rge_dec (mX left) a_left then Some (left, star_u)
      else
        let u_star := mX left + a_left * (2 / (gamma - 1)) in
        if Rle_dec u_star 0 then Some (zero_tuple, star_u)
        else
          let gri_1 := energy left / powR (mass left) gamma in
          Some (PrimitiveInsideExpansion gamma gri_1 u_star, star_u)
  else if Rgt_dec (mass right) 0 then
    let a_right := GetSpeedOfSound gamma right in
    if Rle_dec (mX right + a_right) 0 then Some (right, star_u)
    else
      let u_star := mX right - a_right * (2 / (gamma - 1)) in
      if Rge_dec u_star 0 then Some (zero_tuple, star_u)
      else
        let gri_1 := energy right / powR (mass right) gamma in
        Some (PrimitiveInsideExpansion gamma gri_1 u_star, star_u)
  else Some (zero_tuple, star_u).

(** exact.hpp lines 69-76 [GetPrimitiveUpwind] *)
Definition GetPrimitiveUpwind (fuel : nat) (gamma star_u : R) (left right : Tuple) : option (Tuple * R) :=
  do r <- GetPrimitiveUpwind_private fuel gamma star_u left right;
  let (state, star_u) := r : Tuple * R in
  Some (PassiveScalars_Set state star_u left right, star_u).

(** exact.hpp lines 78-80 [GetFluxUpwind] *)
Definition Exact_GetFluxUpwind (fuel : nat) (gamma star_u : R) (left right : Tuple) : option (Tuple * R) :=
  do r <- GetPrimitiveUpwind fuel gamma star_u left right;
  let (state, star_u) := r : Tuple * R in
  Some (PrimitiveToFlux gamma state, star_u).

(** the member [star_u] after a sequence of calls on a new solver (line 62: it starts at 0) *)
Fixpoint star_u_after (fuel : nat) (gamma star_u : R) (calls : list (Tuple * Tuple)) : option R :=
  match calls with
  | [] => Some star_u
  | (l, r) :: calls =>
      do x <- Exact_GetFluxUpwind fuel gamma star_u l r;
      star_u_after fuel gamma (snd x) calls
  end.
