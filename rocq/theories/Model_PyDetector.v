(** Model of the jump detectors of the Python package: detector.py, lines 12-107, 210-291 and 293-427, for scalar equations and
    elements with Legendre expansions.  [None]: an exception. *)
From Coq Require Import Reals List Arith Bool.
From Verif Require Import Arrays RSum Model_PyEuler Model_PyIntegrator Model_PyExpansion Model_PyGrid Model_PyLimiter.
Import ListNotations.
Open Scope R_scope.

(** [All] (detector.py 12-20) *)
Definition all_cells {V} (g : Grid V) : list nat := seq 0 (n_element g).
(** [dividend / divisor > bound] with numpy's numbers: a positive number divided by zero is infinite, zero divided by zero is
    not a number (detector.py 35-39, 46) *)
Definition exceeds (dividend divisor bound : R) : bool :=
  if Req_EM_T divisor 0 then (if Rlt_dec 0 dividend then true else false)
  else if Rlt_dec bound (dividend / divisor) then true else false.
(** [get_troubled_cell_indices] (detector.py 30-33, 41-48): smoothness values of all cells first, then the comparisons *)
Definition troubled_cells {V} (g : Grid V) (test : nat -> option bool) : option (list nat) :=
  do tests <- all_some (map test (seq 0 (n_element g)));
  Some (flat_map (fun it : nat * bool => if snd it then [fst it] else []) (combine (seq 0 (n_element g)) tests)).

(** ** [Krivodonova2004] (detector.py 51-107) *)
(** [get_boundary_derivatives(0, left, False)] of a neighbor; a shifted one forwards to its element (expansion.py 66-67) *)
Definition neighbor_boundary (es : nat -> Legendre) (b : Neighbor) (left : bool) : R :=
  match b with Plain j => l_boundary (es j) 0 left | Moved j _ => l_boundary (es j) 0 left end.
(** the sum over inflow faces (detector.py 87-103); [speed] is [get_convective_speed] *)
Definition kxrcf_dividend {V} (speed : R -> R) (g : Grid V) (es : nat -> Legendre) (i : nat) : R :=
  let dividend := 0 in
  let dividend := match left_expansion g i with
    | Some b => let value := l_boundary (es i) 0 true in
                if Rle_dec 0 (speed value) then dividend + Rabs (value - neighbor_boundary es b false) else dividend
    | None => dividend end in
  match right_expansion g i with
  | Some b => let value := l_boundary (es i) 0 false in
              if Rle_dec (speed value) 0 then dividend + Rabs (value - neighbor_boundary es b true) else dividend
  | None => dividend end.
(** detector.py 74-107; [x ** (n / 2)] for a positive length *)
Definition kxrcf_divisor (e : Legendre) : R :=
  Rpower (length_of (l_coordinate e)) (INR (l_n e - 1 + 1) / 2) * (Rabs (l_average e) + 1 / 10 ^ 8).
Definition kxrcf {V} (speed : R -> R) (g : Grid V) (es : nat -> Legendre) : option (list nat) :=
  troubled_cells g (fun i => Some (exceeds (kxrcf_dividend speed g es i) (kxrcf_divisor (es i)) 1)).

(** ** [Persson2006] (detector.py 293-337) *)
(** an expansion which is not [Legendre] *)
Inductive AnyExpansion := ALegendre (e : Legendre) | ATaylor (degree : nat).
(** [get_smoothness_value] (detector.py 305-325); [inner_product] takes two functions (concept.py 179-182), here it is called with a third
    argument, which raises [TypeError] *)
Definition persson_value (e : AnyExpansion) : option R :=
  match e with
  | ALegendre e =>
      let pth_mode_energy := l_energy e (l_n e - 1) in
      let all_modes_energy := fold_left (fun s k => s + l_energy e k) (seq 0 (l_n e)) 0 + 1 / 10 ^ 8 in
      div pth_mode_energy all_modes_energy
  | ATaylor _ => None
  end.
Definition any_degree (e : AnyExpansion) : nat := match e with ALegendre e => (l_n e - 1)%nat | ATaylor d => d end.
(** [degree ** (-3)] (detector.py 327-337): [ZeroDivisionError] for zero *)
Definition persson_test (e : AnyExpansion) : option bool :=
  do sensor_ref <- div 1 (INR (any_degree e) ^ 3);
  do sensor <- persson_value e;
  Some (exceeds sensor sensor_ref 1).
Definition persson {V} (g : Grid V) (es : nat -> AnyExpansion) : option (list nat) := troubled_cells g (fun i => persson_test (es i)).

(** ** [Kloeckner2011] (detector.py 341-427) *)
(** [_get_modal_decay] and [_b2] (detector.py 347-364) *)
Definition decay_power (p n : nat) : R := / INR (n + 1) ^ (2 * p).
Definition b2 (p n : nat) : R := decay_power p (n - 1) / rsum p (decay_power p).
(** [add_modal_decay] (detector.py 372-378) for [p + 1] energies *)
Definition add_modal_decay (p : nat) (energy : nat -> R) : nat -> R :=
  let energy_sum := rsum (p + 1) energy + 1 / 10 ^ 8 in
  fold_left (fun energy n => put energy n (energy n + energy_sum * b2 p n)) (rev (seq 1 p)) energy.
(** [apply_skyline] (detector.py 380-386); [IndexError] for one energy *)
Definition apply_skyline (p : nat) (energy : nat -> R) : option (nat -> R) :=
  if (p =? 0)%nat then None else
  let top := Rmax (Rabs (energy p)) (Rabs (energy (p - 1)%nat)) in
  let energy := put (put energy p top) (p - 1) top in
  Some (fold_left (fun energy n => put energy n (Rmax (energy n) (energy (n + 1)%nat))) (rev (seq 1 (p - 2))) energy).
(** [get_least_square_slope] (detector.py 388-402): numerator and denominator; [log10] of positive numbers *)
Definition log10 (x : R) : R := ln x / ln 10.
Record Sums := mkSums { x_sum : R; y_sum : R; xx_sum : R; xy_sum : R }.
Definition slope_sums (p : nat) (energy : nat -> R) : Sums :=
  fold_left (fun s k =>
    let x_k := -2 * log10 (INR (k + 1)) in
    let y_k := log10 (energy (k + 1)%nat) in
    mkSums (x_sum s + x_k) (y_sum s + y_k) (xx_sum s + x_k * x_k) (xy_sum s + x_k * y_k))
    (seq 1 (p - 1)) (mkSums 0 (log10 (energy 1%nat)) 0 0).
Definition slope_numerator (p : nat) (energy : nat -> R) : R := let s := slope_sums p energy in xy_sum s - x_sum s * y_sum s / INR p.
Definition slope_denominator (p : nat) (energy : nat -> R) : R := let s := slope_sums p energy in xx_sum s - x_sum s * x_sum s / INR p.
(** [get_smoothness_value] of a [Legendre] expansion and [get_smoothness_values] (detector.py 404-427): [1.5] divided by the slope; a slope which is
    not a number exceeds nothing, and if it is infinite the quotient is zero *)
Definition kloeckner_test (e : Legendre) : option bool :=
  let p := (l_n e - 1)%nat in
  do energy <- apply_skyline p (add_modal_decay p (l_energy e));
  Some (if Req_EM_T (slope_denominator p energy) 0 then false
        else exceeds (3 / 2) (slope_numerator p energy / slope_denominator p energy) 1).
Definition kloeckner {V} (g : Grid V) (es : nat -> Legendre) : option (list nat) := troubled_cells g (fun i => kloeckner_test (es i)).

(** ** [LiYanHui2022] (detector.py 210-291) *)
(** parameters (detector.py 216-220) *)
Definition psi_c : R := 4 / 10.
Definition lyh_epsilon : R := (9 / 10 * psi_c) / (1 - 9 / 10 * psi_c) * (1 / 100) ^ 2.
(** sample points of a cell (detector.py 236-252): [np.linspace] *)
Definition sample_point (c : Coordinate) (m k : nat) : R :=
  let delta := length_of c / INR m / 2 in
  let a := x_left c + delta in let b := x_right c - delta in
  a + INR k * ((b - a) / INR (m - 1)).
Definition nodes_per_cell (es : nat -> Legendre) : nat := Nat.max (l_n (es 0%nat)) 3.
(** [u_values] (detector.py 243-256) *)
Definition sample_value {V} (g : Grid V) (es : nat -> Legendre) (i_node : nat) : R :=
  let m := nodes_per_cell es in let i := (i_node / m)%nat in l_value (es i) (sample_point (coordinates g i) m (i_node mod m)).
(** [psi_values] (detector.py 257-266); negative indices count from the end *)
Definition psi (n : nat) (u : nat -> R) (i : nat) : R :=
  let l1 := ((i + n - 1) mod n)%nat in let l2 := ((i + n - 2) mod n)%nat in
  let r1 := ((i + 1) mod n)%nat in let r2 := ((i + 2) mod n)%nat in
  let a := Rabs (u i - u l1) + Rabs (u i - 2 * u l1 + u l2) in
  let b := Rabs (u i - u r1) + Rabs (u i - 2 * u r1 + u r2) in
  (2 * a * b + lyh_epsilon) / (a ^ 2 + b ^ 2 + lyh_epsilon).
(** ... replaced near the ends of grids which are not periodic (detector.py 267-269) *)
Definition psi_values (is_periodic : bool) (n : nat) (u : nat -> R) : nat -> R :=
  if is_periodic then psi n u else put (put (put (put (psi n u) 0 psi_c) 1 psi_c) (n - 1) psi_c) (n - 2) psi_c.
(** the loop over nodes of a cell (detector.py 270-281) *)
Definition lyh_cell (n m : nat) (psi : nat -> R) (i_cell : nat) : bool :=
  existsb (fun i => if Rlt_dec (Rmin (Rmin (psi i) (psi ((i + n - 1) mod n)%nat)) (psi ((i + 1) mod n)%nat)) psi_c then true else false) (seq (m * i_cell) m).
Definition lyh {V} (g : Grid V) (es : nat -> Legendre) : list nat :=
  let m := nodes_per_cell es in let n := (n_element g * m)%nat in
  filter (lyh_cell n m (psi_values (periodic g) n (sample_value g es))) (seq 0 (n_element g)).
