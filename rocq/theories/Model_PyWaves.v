(** Model of wave_number.py, lines 86-98, and of discrete_fourier.py, lines 16-40 and 51-72, of the Python package. *)
From Coq Require Import Reals List Arith ZArith.
From Verif Require Import Arrays RSum Model_PyEuler.
Import ListNotations.
Open Scope R_scope.

(** the loops that bring the interval into range (wave_number.py 87-90), with a bound on the number of rounds *)
Fixpoint lower (fuel : nat) (n_term i_interval : Z) : option Z :=
  match fuel with
  | O => None
  | S fuel => if (n_term <? i_interval)%Z then lower fuel n_term (i_interval - n_term * 2)%Z else Some i_interval
  end.
Fixpoint raise (fuel : nat) (n_term i_interval : Z) : option Z :=
  match fuel with
  | O => None
  | S fuel => if (i_interval <=? - n_term)%Z then raise fuel n_term (i_interval + n_term * 2)%Z else Some i_interval
  end.
(** the index of the physical mode (wave_number.py 86-97); [Int_part] is the floor *)
Definition physical_mode (fuel : nat) (n_term : Z) (kappa_h : R) : option Z :=
  let i_interval := Int_part (kappa_h / PI) in
  do i_interval <- lower fuel n_term i_interval;
  do i_interval <- raise fuel n_term i_interval;
  if negb ((- n_term <? i_interval)%Z && (i_interval <=? n_term)%Z) then None else
  let i_mode := if (i_interval <? 0)%Z then (-1 - i_interval)%Z else (i_interval - (if (i_interval =? n_term)%Z then 1 else 0))%Z in
  if negb ((0 <=? i_mode)%Z && (i_mode <? n_term)%Z) then None else Some i_mode.

(** [np.linspace(a, b, n)[j]] *)
Definition linspace_at (a b : R) (n j : nat) : R := if (n <=? 1)%nat then a else a + INR j * ((b - a) / INR (n - 1)).
(** [_sample_points[j]] (discrete_fourier.py 24-29) *)
Definition sample_point (x_left x_right : R) (n_element n_sample_per_element j : nat) : R :=
  let delta_x := (x_right - x_left) / INR n_element in
  let n_sample := (n_element * n_sample_per_element)%nat in
  let half_sample_gap := delta_x / INR n_sample_per_element / 2 in
  linspace_at (x_left + half_sample_gap) (x_right - half_sample_gap) n_sample j.
(** [get_kth_fourier_coeff] (discrete_fourier.py 31-40) of a real function, as real and imaginary part; powers of [_w] by de Moivre's formula *)
Definition kth_fourier_coeff (x_left x_right : R) (n_element n_sample_per_element : nat) (k : nat) (u : R -> R) : R * R :=
  let n_sample := (n_element * n_sample_per_element)%nat in
  let angle j := - (INR j * INR k) * (2 * PI / INR n_sample) in
  let x j := sample_point x_left x_right n_element n_sample_per_element j in
  (rsum n_sample (fun j => u (x j) * cos (angle j)) / INR n_sample, rsum n_sample (fun j => u (x j) * sin (angle j)) / INR n_sample).
(** the coefficient of the complex function [u + i v] put together from its parts (discrete_fourier.py 53-72) *)
Definition complex_coeff (x_left x_right : R) (n_element n_sample_per_element : nat) (k : nat) (u v : R -> R) : R * R :=
  let c := kth_fourier_coeff x_left x_right n_element n_sample_per_element k u in
  let d := kth_fourier_coeff x_left x_right n_element n_sample_per_element k v in
  (fst c - snd d, snd c + fst d).
