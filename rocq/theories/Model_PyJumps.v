(** Model of the jump detectors of the Python package that extend the solutions of neighbors into a cell: detector.py, lines 109-207, for
    scalar equations and elements with Legendre expansions. *)
From Coq Require Import Reals List Arith Bool.
From Verif Require Import Arrays RSum Model_PyEuler Model_PyIntegrator Model_PyExpansion Model_PyGrid Model_PyLimiter Model_PyDetector.
Import ListNotations.
Open Scope R_scope.

(** the indices [i - 1], counted from the end if negative, and [(i + 1) % n_cell] (detector.py 140, 146, 186, 191) *)
Definition i_left (n i : nat) : nat := ((i + n - 1) mod n)%nat.
Definition i_right (n i : nat) : nat := ((i + 1) mod n)%nat.

(** ** [LiWanAi2011] (detector.py 109-160) *)
(** the variables of the loop *)
Record LwaState := mkLwa { n_neighbor : nat; curr_norm : R; lwa_sum : R }.
(** one neighbor (detector.py 139-144, 145-150) *)
Definition lwa_add (es : nat -> Legendre) (averages : nat -> R) (curr_value x : R) (j : nat) (b : Neighbor) (s : LwaState) : LwaState :=
  mkLwa (n_neighbor s + 1) (Rmin (curr_norm s) (averages j)) (lwa_sum s + Rabs (curr_value - neighbor_value es b x)).
(** [get_smoothness_values] and [max_smoothness] (detector.py 121-160) of one cell *)
Definition lwa_test {V} (g : Grid V) (es : nat -> Legendre) (i : nat) : bool :=
  let averages k := Rabs (l_average (es k)) in
  let x := x_center (coordinates g i) in
  let curr_value := l_value (es i) x in
  let s := mkLwa 0 (averages i) 0 in
  let s := match left_expansion g i with Some b => lwa_add es averages curr_value x (i_left (n_element g) i) b s | None => s end in
  let s := match right_expansion g i with Some b => lwa_add es averages curr_value x (i_right (n_element g) i) b s | None => s end in
  let degree := (l_n (es i) - 1)%nat in
  let ratio := INR (n_neighbor s) * Rpower (length_of (coordinates g i)) (INR (degree + 1) / 2) in
  exceeds (lwa_sum s) (ratio * (curr_norm s + 1 / 10 ^ 8)) (1 + 2 * (if (2 <? degree)%nat then 1 else 0)).
Definition lwa_detect {V} (g : Grid V) (es : nat -> Legendre) : option (list nat) := troubled_cells g (fun i => Some (lwa_test g es i)).

(** ** [ZhuJun2021] (detector.py 162-207) *)
(** [_integrate] (detector.py 202-205) *)
Definition zj_integral (es : nat -> Legendre) (i : nat) (b : Neighbor) : R :=
  Rabs (integrate (l_integrator (es i)) (fun x => l_value (es i) x - neighbor_value es b x)).
(** dividend and smallest norm; one neighbor (detector.py 185-189, 190-194) *)
Definition zj_add (es : nat -> Legendre) (norms : nat -> R) (i j : nat) (b : Neighbor) (s : R * R) : R * R :=
  (Rmax (fst s) (zj_integral es i b), Rmin (snd s) (norms j)).
(** [get_smoothness_values] (detector.py 174-200) of one cell *)
Definition zj_test {V} (g : Grid V) (es : nat -> Legendre) (i : nat) : bool :=
  let norms k := norm_1 (l_integrator (es k)) (l_value (es k)) in
  let s := (0, norms i) in
  let s := match left_expansion g i with Some b => zj_add es norms i (i_left (n_element g) i) b s | None => s end in
  let s := match right_expansion g i with Some b => zj_add es norms i (i_right (n_element g) i) b s | None => s end in
  exceeds (fst s) ((snd s + 1 / 10 ^ 8) * length_of (coordinates g i)) 1.
Definition zj_detect {V} (g : Grid V) (es : nat -> Legendre) : option (list nat) := troubled_cells g (fun i => Some (zj_test g es i)).
