(** Model of [XuXiaoRui2023] (limiter.py, lines 265-308), the limiter by compression between averages, for scalar equations and Legendre expansions. *)
From Coq Require Import Reals List Arith String Bool.
From Verif Require Import Arrays RSum Model_PyEuler Model_PyIntegrator Model_PyExpansion.
Import ListNotations.
Open Scope R_scope.

(** ** Construction *)
(** the methods declared abstract by [concept.Limiter] (concept.py 986-994) and [CompactWENO] (limiter.py 74-80) *)
Definition abstract_methods : list string := ["name"; "reconstruct"; "get_candidates"; "get_scalar_taylor_coeff"]%string.
(** the methods defined by [CompactWENO] (limiter.py 19-72, private methods left out), by [ZhongXingHui2013] (limiter.py 83-151), by [LiWanAi2020] (limiter.py 153-262) and by [XuXiaoRui2023] (limiter.py 269-308) *)
Definition compact_methods : list string := ["reconstruct"; "get_new_taylor_coeff"]%string.
Definition zxh_methods : list string := ["__init__"; "name"; "get_candidates"; "get_scalar_taylor_coeff"]%string.
Definition lwa_methods : list string := ["__init__"; "name"; "get_candidates"; "get_scalar_taylor_coeff"]%string.
Definition xxr_methods : list string := ["__init__"; "name"; "get_new_coeff"]%string.
(** the rule of [abc.ABC]: an object is made only if every abstract method is defined *)
Definition make {A : Type} (methods : list string) (object : A) : option A :=
  if forallb (fun m => existsb (String.eqb m) methods) abstract_methods then Some object else None.
(** [XuXiaoRui2023(alpha)] (limiter.py 269-270) *)
Definition xxr_init (alpha : R) : option R := make (compact_methods ++ xxr_methods) alpha.

(** ** [get_new_coeff] (limiter.py 278-308) *)
(** the least and the greatest average of the cell and its neighbors (limiter.py 281-287) *)
Definition u_max (curr_average : R) (neighbors : list (option R)) : R :=
  fold_left (fun u b => match b with Some a => Rmax u a | None => u end) neighbors curr_average.
Definition u_min (curr_average : R) (neighbors : list (option R)) : R :=
  fold_left (fun u b => match b with Some a => Rmin u a | None => u end) neighbors curr_average.
Definition big_a (alpha curr_average : R) (neighbors : list (option R)) : R :=
  alpha * Rmin (u_max curr_average neighbors - curr_average) (curr_average - u_min curr_average neighbors).
(** [monotone] (limiter.py 295-298) *)
Definition monotone (value : R -> R) (curr_average big_a x : R) : R := tanh ((value x - curr_average) / big_a).
(** [new_expansion] (limiter.py 300-303) *)
Definition compressed (value : R -> R) (curr_average big_a monotone_average x : R) : R :=
  let dividend := (monotone value curr_average big_a x - monotone_average) * big_a in
  let divisor := 1 + Rabs monotone_average in
  curr_average + dividend / divisor.
(** [Integrator.average] accepts a function only (concept.py 142); the number of further arguments is given *)
Definition call_average (i : Integrator) (f : R -> R) (more : nat) : option R := if (more =? 0)%nat then average i f else None.
(** the new coefficients; [more] is the number of further arguments in the call of [average], which is one (limiter.py 299) *)
Definition xxr_with (more : nat) (alpha : R) (e : Legendre) (neighbors : list (option R)) : option (nat -> R) :=
  let curr_average := l_average e in
  let big_a := big_a alpha curr_average neighbors in
  if Req_EM_T big_a 0 then do new <- l_approximate e (fun _ => curr_average); Some (l_modes new)
  else
    do monotone_average <- call_average (l_integrator e) (monotone (l_value e) curr_average big_a) more;
    do new <- l_approximate e (compressed (l_value e) curr_average big_a monotone_average);
    Some (l_modes new).
Definition xxr_new_coeff : R -> Legendre -> list (option R) -> option (nat -> R) := xxr_with 1.
