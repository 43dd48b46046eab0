(** Model of the polynomial expansions of the Python package: expansion.py.  Values are real numbers (for systems
    these are the components); arrays of [n] entries are functions of the index; [None]: an exception.
    [np.linalg.inv] and the roots of Legendre polynomials are parameters. *)
From Coq Require Import Reals List Arith Bool.
From Verif Require Import Arrays RSum Model_PyEuler Model_PyPoly Model_PyIntegrator.
Import ListNotations.
Open Scope R_scope.

(** ** [Taylor] *)

(** [_factorials] (expansion.py 96-98) *)
Fixpoint factorial (k : nat) : R := match k with O => 1 | S m => factorial m * INR (S m) end.
(** [x_power] after [k] rounds (expansion.py 165-169) *)
Fixpoint x_power (y : R) (k : nat) : R := match k with O => 1 | S m => x_power y m * y end.
(** [Taylor.get_basis_values] (expansion.py 162-170); [c] is the center *)
Definition taylor_values (c x : R) (k : nat) : R := x_power (x - c) k.
(** [Taylor.get_basis_gradients] (expansion.py 172-180) *)
Definition taylor_gradients (c x : R) (k : nat) : R :=
  match k with O => 0 | S m => INR (S m) * x_power (x - c) m end.
(** [Taylor.get_basis_hessians] (expansion.py 182-192) *)
Definition taylor_hessians (c x : R) (k : nat) : R :=
  match k with O => 0 | S O => 0 | S (S m) => INR (S (S m)) * INR (S m) * x_power (x - c) m end.
(** [Taylor.get_basis_derivatives] (expansion.py 194-204) *)
Definition taylor_derivatives (c x : R) (k l : nat) : R :=
  match k with
  | O => taylor_values c x l
  | _ => if (l <? k)%nat then 0 else (x - c) ^ (l - k) * (factorial l / factorial (l - k))
  end.
(** numpy's [row.dot(matrix)], [matrix.dot(column)] and [row.dot(column)] with [n] terms *)
Definition row_dot (n : nat) (row : nat -> R) (a : nat -> nat -> R) (j : nat) : R := rsum n (fun i => row i * a i j).
Definition mat_dot (n : nat) (a : nat -> nat -> R) (col : nat -> R) (i : nat) : R := rsum n (fun j => a i j * col j).
Definition dot (n : nat) (a b : nat -> R) : R := rsum n (fun i => a i * b i).
(** [global_to_value] and [global_to_gradient] (expansion.py 215-221) *)
Definition global_to_value (n : nat) (c : R) (coeff : nat -> R) (x : R) : R := dot n coeff (taylor_values c x).
Definition global_to_gradient (n : nat) (c : R) (coeff : nat -> R) (x : R) : R := dot n coeff (taylor_gradients c x).
(** [global_to_derivatives] (expansion.py 223-231): the first term is read from the arrays of [n] entries *)
Definition global_to_derivatives (n : nat) (c : R) (coeff : nat -> R) (x : R) (k : nat) : option R :=
  match k with
  | O => Some (global_to_value n c coeff x)
  | _ => if (k <? n)%nat
         then Some (fold_left (fun value l => value + taylor_derivatives c x k l * coeff l) (seq (k + 1) (n - (k + 1)))
                              (taylor_derivatives c x k k * coeff k))
         else None
  end.
(** [Taylor.average] (expansion.py 151-154) *)
Definition taylor_average (n : nat) (i : Integrator) (coeff : nat -> R) : option R :=
  average i (global_to_value n (x_center (i_coordinate i)) coeff).
(** [Taylor.get_basis_innerproducts] (expansion.py 206-213) for any basis *)
Definition basis_innerproducts (i : Integrator) (basis : R -> nat -> R) (j k : nat) : R :=
  integrate i (fun x => basis x j * basis x k).

(** ** [Legendre] *)

(** the column [k] of [_legendre_to_taylor] is written in the round [k] (expansion.py 550-554): rows 1 to k get a
    multiple of rows 0 to k-1 of the column before, and a multiple of rows 0 to k-2 of the one before that is
    subtracted from the same rows *)
Definition legendre_round (a : nat -> nat -> R) (k : nat) : nat -> nat -> R :=
  let a := fun i j => if (j =? k)%nat && (1 <=? i)%nat && (i <=? k)%nat
                      then (2 * INR k - 1) / INR k * a (i - 1)%nat (k - 1)%nat else a i j in
  fun i j => if (j =? k)%nat && (i <? k - 1)%nat then a i j - (INR k - 1) / INR k * a i (k - 2)%nat else a i j.
(** [np.eye] *)
Definition eye (i j : nat) : R := if (i =? j)%nat then 1 else 0.
(** the dimensionless matrix for [n] terms (expansion.py 549-554) *)
Definition legendre_matrix (n : nat) : nat -> nat -> R := fold_left legendre_round (seq 2 (n - 2)) eye.
(** ... and divided by powers of the jacobian (expansion.py 555-557) *)
Definition legendre_to_taylor (n : nat) (jacobian : R) (i j : nat) : R :=
  if (1 <=? i)%nat then legendre_matrix n i j / jacobian ^ i else legendre_matrix n i j.
(** [_mode_weights] (expansion.py 545-547) *)
Definition mode_weight (jacobian : R) (k : nat) : R := jacobian * 2 / (2 * INR k + 1).

(** a [Legendre] object: number of terms, integrator, [_taylor_to_legendre], [_mode_coeffs], [_taylor_coeff] *)
Record Legendre := mkLegendre { l_n : nat; l_integrator : Integrator; l_inverse : nat -> nat -> R;
  l_modes : nat -> R; l_taylor : nat -> R }.
Definition l_coordinate (e : Legendre) : Coordinate := i_coordinate (l_integrator e).
Definition l_center (e : Legendre) : R := x_center (l_coordinate e).
Definition l_jacobian (e : Legendre) : R := local_to_jacobian (l_coordinate e) 0.
Definition l_matrix (e : Legendre) : nat -> nat -> R := legendre_to_taylor (l_n e) (l_jacobian e).
(** [Legendre.__init__] (expansion.py 536-558) with [get_integrator] (expansion.py 100-103); the coefficients are
    not initialized, here zero; the assertion of [Taylor.__init__] (expansion.py 107) *)
Definition Legendre_init (roots : nat -> list R * list R) (inv : nat -> (nat -> nat -> R) -> option (nat -> nat -> R))
    (degree : nat) (c : Coordinate) : option Legendre :=
  if negb (degree <? 100)%nat then None else
  if negb (jacobian_degree c =? 0)%nat then None else
  let n := (degree + 1)%nat in
  do i <- Integrator_init c (fst (roots n)) (snd (roots n));
  do m <- inv n (legendre_to_taylor n (local_to_jacobian c 0));
  Some (mkLegendre n i m (fun _ => 0) (fun _ => 0)).
(** [_set_taylor_coeff] (expansion.py 579-589) *)
Definition l_set_taylor (e : Legendre) : Legendre :=
  mkLegendre (l_n e) (l_integrator e) (l_inverse e) (l_modes e) (mat_dot (l_n e) (l_matrix e) (l_modes e)).
(** [set_coeff] (expansion.py 597-603); [length] is that of the argument *)
Definition l_set_coeff (e : Legendre) (length : nat) (coeffs : nat -> R) : option Legendre :=
  if (length =? l_n e)%nat
  then Some (l_set_taylor (mkLegendre (l_n e) (l_integrator e) (l_inverse e) coeffs (l_taylor e)))
  else None.
(** [set_taylor_coeff] (expansion.py 591-595) *)
Definition l_set_taylor_coeff (e : Legendre) (coeff : nat -> R) : Legendre :=
  mkLegendre (l_n e) (l_integrator e) (l_inverse e) (mat_dot (l_n e) (l_inverse e) coeff) coeff.
(** [get_basis_values] (expansion.py 625-630) *)
Definition l_basis_values (e : Legendre) (x : R) : option (nat -> R) :=
  do xi <- global_to_local (l_coordinate e) x; Some (fun k => eval_legendre k xi).
(** [get_basis_gradients], [get_basis_hessians], [get_basis_derivatives] (expansion.py 632-642) *)
Definition l_basis_gradients (e : Legendre) (x : R) : nat -> R := row_dot (l_n e) (taylor_gradients (l_center e) x) (l_matrix e).
Definition l_basis_hessians (e : Legendre) (x : R) : nat -> R := row_dot (l_n e) (taylor_hessians (l_center e) x) (l_matrix e).
Definition l_basis_derivatives (e : Legendre) (x : R) (k : nat) : nat -> R :=
  row_dot (l_n e) (taylor_derivatives (l_center e) x k) (l_matrix e).
(** [global_to_value], ... inherited from [Taylor] *)
Definition l_value (e : Legendre) (x : R) : R := global_to_value (l_n e) (l_center e) (l_taylor e) x.
Definition l_gradient (e : Legendre) (x : R) : R := global_to_gradient (l_n e) (l_center e) (l_taylor e) x.
Definition l_derivatives (e : Legendre) (x : R) (k : nat) : option R := global_to_derivatives (l_n e) (l_center e) (l_taylor e) x k.
(** [average], [get_mode_weight] and [get_mode_energy] (expansion.py 566-577) *)
Definition l_average (e : Legendre) : R := l_modes e 0.
Definition l_weight (e : Legendre) (k : nat) : R := mode_weight (l_jacobian e) k.
Definition l_energy (e : Legendre) (k : nat) : R := l_weight e k * l_modes e k ^ 2.
(** [approximate] (expansion.py 608-616); the integrand divides by the jacobian, [None] for an element without
    length *)
Definition l_approximate (e : Legendre) (f : R -> R) : option Legendre :=
  do _ <- global_to_local (l_coordinate e) (l_center e);
  let local x := match global_to_local (l_coordinate e) x with Some xi => xi | None => 0 end in
  let modes k := integrate (l_integrator e) (fun x => eval_legendre k (local x) * f x) / l_weight e k in
  Some (l_set_taylor (mkLegendre (l_n e) (l_integrator e) (l_inverse e) modes (l_taylor e))).
(** [get_boundary_derivatives] (concept.py 307-326): of the basis, and of the approximation *)
Definition l_boundary_basis (e : Legendre) (k : nat) (left : bool) : nat -> R :=
  l_basis_derivatives e (if left then x_left (l_coordinate e) else x_right (l_coordinate e)) k.
Definition l_boundary (e : Legendre) (k : nat) (left : bool) : R := dot (l_n e) (l_modes e) (l_boundary_basis e k left).

(** ** [TruncatedLegendre] *)
(** [TruncatedLegendre.__init__] (expansion.py 649-658): the leading part of the matrix and of the coefficients;
    the result is the array of Taylor coefficients *)
Definition Truncated_init (degree : nat) (that : Legendre) : option (nat -> R) :=
  if (degree <=? l_n that - 1)%nat
  then let n := (degree + 1)%nat in Some (mat_dot n (l_matrix that) (l_modes that))
  else None.
Definition truncated_value (degree : nat) (that : Legendre) (x : R) : option R :=
  do taylor <- Truncated_init degree that; Some (global_to_value (degree + 1) (l_center that) taylor x).
