(** Model of the special polynomials of the Python package: polynomial.py, lines 1-268.  Numbers are
    real numbers; [scipy.special.eval_legendre] is the Legendre polynomial given by its recurrence; a
    failed assertion and a division by zero are [None].  The names and the caches ([Vincent] keeps
    gradients in a dictionary, lines 150, 167-168, 185) are left out: the cached values are the computed ones. *)
From Coq Require Import Reals List Arith Bool.
From Verif Require Import Arrays RSum Model_PyEuler.
Import ListNotations.
Open Scope R_scope.

(** The Legendre polynomials of degree n and n - 1 at x; scipy reflects negative degrees, P_{-1} = P_0.
    (external: [scipy.special.eval_legendre], used in polynomial.py 33-34, 46, 90, 160-162, 177) *)
Fixpoint legendre2 (n : nat) (x : R) : R * R :=
  match n with
  | O => (1, 1)
  | S m => let (curr, prev) := legendre2 m x in
           (((2 * INR m + 1) * x * curr - INR m * prev) / (INR m + 1), curr)
  end.
Definition eval_legendre (n : nat) (x : R) : R := fst (legendre2 n x).
Definition eval_legendre_prev (n : nat) (x : R) : R := snd (legendre2 n x).

(** [Radau.__init__] (polynomial.py 21-24) *)
Definition Radau_ok (degree : nat) : bool := (1 <=? degree)%nat.
(** [Radau.local_to_value] (polynomial.py 32-38) *)
Definition Radau_value (k : nat) (x : R) : R * R :=
  let curr := eval_legendre k x in
  let prev := eval_legendre (k - 1) x in
  let left := (curr + prev) / 2 in
  let right := curr - prev in
  (left, right * ((-1) ^ k / 2)).
(** the loop that differentiates Legendre polynomials; (prev, curr) (polynomial.py 41-47) *)
Fixpoint Radau_loop (n : nat) (x : R) : R * R :=
  match n with
  | O => (0, 0)
  | S m => let (_, curr) := Radau_loop m x in
           let new_prev := curr in
           (new_prev, INR (S m) * eval_legendre m x + x * new_prev)
  end.
(** [Radau.local_to_gradient] (polynomial.py 40-51) *)
Definition Radau_gradient (k : nat) (x : R) : R * R :=
  let (prev, curr) := Radau_loop k x in
  let left := (curr + prev) / 2 in
  let right := curr - prev in
  (left, right * ((-1) ^ k / 2)).

(** the choices of mu (polynomial.py 132-142) *)
Definition discontinuous_galerkin (k : nat) : R := 1.
Definition spectral_difference (k : nat) : R := (INR k + 1) / (2 * INR k + 1).
Definition huynh_lumping_lobatto (k : nat) : R := INR k / (2 * INR k + 1).

(** [Vincent]: the degree of the solution and the two ratios *)
Record Vincent := mkVincent { v_k : nat; next_ratio : R; prev_ratio : R }.
(** [Vincent.__init__] (polynomial.py 144-150) *)
Definition Vincent_init (degree : nat) (mu : nat -> R) : option Vincent :=
  if (1 <=? degree)%nat && (degree <=? 10)%nat
  then let k := (degree - 1)%nat in Some (mkVincent k (mu k) (1 - mu k))
  else None.
(** [Vincent.degree] (polynomial.py 155-156) *)
Definition Vincent_degree (v : Vincent) : nat := v_k v + 1.
(** the local function [right] (polynomial.py 159-163); k - 1 may be -1 *)
Definition Vincent_right (v : Vincent) (xi : R) : R :=
  let val := eval_legendre (v_k v) xi in
  let val := val + prev_ratio v * eval_legendre_prev (v_k v) xi in
  let val := val + next_ratio v * eval_legendre (v_k v + 1) xi in
  val / 2.
(** [Vincent.local_to_value] (polynomial.py 158-164) *)
Definition Vincent_value (v : Vincent) (x : R) : R * R := (Vincent_right v (- x), Vincent_right v x).
(** the loop (polynomial.py 169-178) after [n] rounds: (prev, curr, next) *)
Fixpoint Vincent_loop (n : nat) (x : R) : R * R * R :=
  match n with
  | O => (0, 0, 0)
  | S k_curr =>
      let '(prev, curr, next) := Vincent_loop k_curr x in
      let '(prev, curr) := if (0 <? k_curr)%nat then (curr, next) else (prev, curr) in
      let k_next := (k_curr + 1)%nat in
      (prev, curr, INR k_next * eval_legendre k_curr x + x * curr)
  end.
(** [Vincent.local_to_gradient] (polynomial.py 166-186) *)
Definition Vincent_gradient (v : Vincent) (x : R) : R * R :=
  let '(prev, curr, next) := Vincent_loop (1 + v_k v) x in
  let left := (-1) ^ v_k v * (curr - prev_ratio v * prev - next_ratio v * next) / 2 in
  let right := (curr + prev_ratio v * prev + next_ratio v * next) / 2 in
  (left, right).

(** ** Huynh's functions *)

(** The matrix of the conditions on the coefficients of the right function (polynomial.py 68-87): lumping in
    the first [n_lump] rows, orthogonality by quadrature in the next ones, the value at 1 in the last one.
    [x] and [w] are the points and weights of [scipy.special.roots_legendre(degree)]; the loop over them
    is a sum from left to right, added to the zero in the matrix. *)
Definition Huynh_a (degree n_lump : nat) (x w : list R) (l i : nat) : R :=
  if (l <? n_lump)%nat then
    if (l <=? i)%nat then (-1) ^ (i - l) * INR (fact i) / INR (fact (i - l)) else 0
  else if (l <? degree)%nat then
    fold_left (fun s q => s + fst q ^ i * eval_legendre (l - n_lump) (fst q) * snd q) (combine x w) 0
  else 1.
(** the right-hand side (polynomial.py 70, 88) *)
Definition Huynh_b (degree l : nat) : R := if (l =? degree)%nat then 1 else 0.
(** [Huynh.__init__] (polynomial.py 63-95) with [np.linalg.solve] as a parameter that gets the number of
    unknowns, the matrix and the right-hand side; the result is the list of coefficients *)
Definition Huynh_init (solve : nat -> (nat -> nat -> R) -> (nat -> R) -> option (nat -> R))
    (roots : nat -> list R * list R) (degree n_lump : nat) : option (nat -> R) :=
  if (1 <=? degree)%nat && (degree <=? 10)%nat && (1 <=? n_lump)%nat && (n_lump <=? degree)%nat then
    let (x, w) := roots degree in
    solve (degree + 1)%nat (Huynh_a degree n_lump x w) (Huynh_b degree)
  else None.
(** [_local_to_right_value] and [_local_to_right_grad] (polynomial.py 89-95, 103-104, 111-112): the power of the
    constant term in the gradient is zero, and so is its coefficient *)
Definition Huynh_right (degree : nat) (c : nat -> R) (x : R) : R := rsum (degree + 1) (fun i => c i * x ^ i).
Definition Huynh_right_grad (degree : nat) (c : nat -> R) (x : R) : R :=
  rsum (degree + 1) (fun i => c i * INR i * x ^ (i - 1)).
(** [Huynh.local_to_value] and [local_to_gradient] (polynomial.py 106-109, 114-117) *)
Definition Huynh_value (degree : nat) (c : nat -> R) (x : R) : R * R := (Huynh_right degree c (- x), Huynh_right degree c x).
Definition Huynh_gradient (degree : nat) (c : nat -> R) (x : R) : R * R :=
  (- Huynh_right_grad degree c (- x), Huynh_right_grad degree c x).

(** ** Lagrange's polynomials *)

(** [for j in range(n)], a loop over the indices from j on that may fail *)
Fixpoint for_range {A} (n j : nat) (body : nat -> A -> option A) (a : A) : option A :=
  match n with O => Some a | S n => do a <- body j a; for_range n (S j) body a end.

(** [IthLagrange.local_to_value] (polynomial.py 207-215) *)
Definition IthLagrange_value (i : nat) (points : list R) (x : R) : option R :=
  if (i <? length points)%nat then
  for_range (length points) 0 (fun j value =>
    if (j =? i)%nat then Some value else
    let dividend := x - nth j points 0 in
    let divisor := nth i points 0 - nth j points 0 in
    do q <- div dividend divisor;
    Some (value * q)) 1
  else None.
(** [IthLagrange.local_to_gradient] (polynomial.py 217-230); the assertion of [__init__] (lines 193-196) *)
Definition IthLagrange_gradient (i : nat) (points : list R) (x : R) : option R :=
  if (i <? length points)%nat then
  for_range (length points) 0 (fun j value =>
    if (j =? i)%nat then Some value else
    do d <- for_range (length points) 0 (fun k d =>
        if (k =? i)%nat || (k =? j)%nat then Some d else
        Some (fst d * (x - nth k points 0), snd d * (nth i points 0 - nth k points 0)))
      (1, nth i points 0 - nth j points 0);
    do q <- div (fst d) (snd d);
    Some (value + q)) 0
  else None.
(** [LagrangeBasis.local_to_value] and [local_to_gradient] (polynomial.py 254-264) *)
Definition LagrangeBasis_value (points : list R) (x : R) : option (list R) :=
  for_range (length points) 0 (fun i values => do v <- IthLagrange_value i points x; Some (values ++ [v])) [].
Definition LagrangeBasis_gradient (points : list R) (x : R) : option (list R) :=
  for_range (length points) 0 (fun i values => do v <- IthLagrange_gradient i points x; Some (values ++ [v])) [].
