(** Model of the limiters of the Python package: limiter.py, lines 11-275, on elements with Legendre expansions.
    Neighbors enter by their values only, so they are functions; as in Model_PyElement there is one expansion per
    component.  [None]: an exception, or a division by zero. *)
From Coq Require Import Reals List Arith Bool.
From Verif Require Import Arrays RSum Model_PyEuler Model_PyPoly Model_PyIntegrator Model_PyExpansion Model_PyGrid.
Import ListNotations.
Open Scope R_scope.

(** what a limiter uses of a candidate: number of terms, integrator and Taylor coefficients (limiter.py 11-12) *)
Record Candidate := mkCandidate { c_n : nat; c_integrator : Integrator; c_taylor : nat -> R }.
Definition of_legendre (e : Legendre) : Candidate := mkCandidate (l_n e) (l_integrator e) (l_taylor e).
(** [[f(x) for x in xs]] of functions that may fail *)
Fixpoint all_some {A} (l : list (option A)) : option (list A) :=
  match l with [] => Some [] | x :: l => do x <- x; do l <- all_some l; Some (x :: l) end.
(** the neighbors which are there, [if neighbor:] (limiter.py 130-132, 217-219) *)
Definition present {A} (l : list (option A)) : list A := flat_map (fun x => match x with Some x => [x] | None => [] end) l.
Definition sum_list (l : list R) : R := fold_left Rplus l 0.
(** [integrate] of the squared derivative of the order [k] in [_get_smoothness_value] and [_get_derivative_norms]
    (limiter.py 112-117, 186-191); [k <= degree], so that the derivative is there *)
Definition derivative_norm (c : Candidate) (k : nat) : R :=
  integrate (c_integrator c) (fun x =>
    match global_to_derivatives (c_n c) (x_center (i_coordinate (c_integrator c))) (c_taylor c) x k with Some v => v ^ 2 | None => 0 end).

(** ** [ZhongXingHui2013] (limiter.py 83-151) *)

(** [_borrow_expansion] (limiter.py 99-108) *)
Definition z_borrow roots inv (e : Legendre) (that : R -> R) : option Legendre :=
  do borrowed <- Legendre_init roots inv (l_n e - 1) (l_coordinate e);
  do that_average <- average (l_integrator e) that;
  l_approximate borrowed (fun x => that x + l_average e - that_average).
(** [_get_smoothness_value] (limiter.py 110-124) *)
Definition z_smoothness (c : Candidate) : R :=
  fold_left (fun beta d => let k := (d + 1)%nat in
    beta + derivative_norm c k * (length_of (i_coordinate (c_integrator c)) ^ (2 * k - 1) / factorial k ^ 2)) (seq 0 (c_n c - 1)) 0.
(** [get_candidates] (limiter.py 126-132) *)
Definition z_candidates roots inv (e : Legendre) (left right : option (R -> R)) : option (list Candidate) :=
  do borrowed <- all_some (map (z_borrow roots inv e) (present [left; right]));
  Some (of_legendre e :: map of_legendre borrowed).
(** [weights] (limiter.py 136-144) *)
Definition z_weights (epsilon w_small : R) (cs : list Candidate) : option (list R) :=
  do weights <- all_some (map (fun ic => let '(i, c) := ic in
      let linear_weight := if (i =? 0)%nat then 1 - (INR (length cs) - 1) * w_small else w_small in
      div linear_weight ((epsilon + z_smoothness c) ^ 2)) (combine (seq 0 (length cs)) cs));
  all_some (map (fun w => div w (sum_list weights)) weights).
(** the weighted sum (limiter.py 145-149); all candidates have the same number of terms *)
Definition z_scalar (epsilon w_small : R) (cs : list Candidate) : option (nat -> R) :=
  do weights <- z_weights epsilon w_small cs;
  match combine weights cs with
  | [] => None
  | (w, c) :: rest => Some (fold_left (fun coeff wc k => coeff k + c_taylor (snd wc) k * fst wc) rest (fun k => c_taylor c k * w))
  end.

(** ** [LiWanAi2020] (limiter.py 154-275) *)

(** a neighbor: its values and its integrator *)
Definition Neighborhood : Type := (R -> R) * Integrator.
(** [_borrow_expansion] (limiter.py 172-184); [borrowed.get_basis(1)] evaluates the Legendre polynomial of degree one *)
Definition w_borrow roots inv (e : Legendre) (that : Neighborhood) : option Legendre :=
  do borrowed <- Legendre_init roots inv 1 (l_coordinate e);
  let this_average := l_average e in
  let psi x := fst that x - this_average in
  do _ <- global_to_local (l_coordinate e) (l_center e);
  let phi x := match global_to_local (l_coordinate e) x with Some xi => eval_legendre 1 xi | None => 0 end in
  do coeff_1 <- div (inner_product (snd that) phi psi) (norm_2 (snd that) phi);
  l_set_coeff borrowed 2 (fun k => match k with O => this_average | _ => coeff_1 end).
(** [_get_derivative_norms] (limiter.py 186-200), the entry of the order [k] *)
Definition w_norm (c : Candidate) (k : nat) : R :=
  derivative_norm c k * ((length_of (i_coordinate (c_integrator c)) / 2) ^ (2 * k - 1) / factorial (k - 1) ^ 2).
(** the sum of the orders [k] to [degree] (limiter.py 202-204, 236) *)
Definition w_sum (c : Candidate) (k : nat) : R := rsum (c_n c - k) (fun i => w_norm c (k + i)).
(** [get_candidates] (limiter.py 206-220) *)
Definition w_candidates roots inv (e : Legendre) (left right : option Neighborhood) : option (list Candidate) :=
  do own <- all_some (map (fun i => let degree := (l_n e - 1 - i)%nat in
      do taylor <- Truncated_init degree e; Some (mkCandidate (degree + 1) (l_integrator e) taylor)) (seq 0 (l_n e - 1)));
  do borrowed <- all_some (map (w_borrow roots inv e) (present [left; right]));
  Some (own ++ map of_legendre borrowed).
(** the loop from degree [p] to 2 (limiter.py 232-241): weights so far; [degree] is the degree of the next candidate *)
Fixpoint w_loop (epsilon k_trunc beta_mean : R) (degree : nat) (cs : list Candidate) : option (list R) :=
  match degree, cs with
  | S (S d), c :: cs =>
      let beta := w_sum c 2 in
      do w <- div (10 ^ (degree + 1)) (beta ^ 2 + epsilon);
      if Rlt_dec (k_trunc / (INR degree - 1) * (beta - w_norm c 2)) beta_mean then Some [w]
      else do rest <- w_loop epsilon k_trunc beta_mean (S d) cs; Some (w :: rest)
  | S (S _), [] => None
  | _, _ => Some []
  end.
(** [get_scalar_taylor_coeff] (limiter.py 222-275) *)
Definition w_weights (epsilon k_epsilon k_trunc : R) (cs : list Candidate) : option (list R) :=
  match cs with
  | [] => None
  | first :: _ =>
      let curr_degree := (c_n first - 1)%nat in
      do curr <- nth_error cs (curr_degree - 1);
      do c_left <- nth_error cs curr_degree;
      let c_right := last cs first in
      let beta_curr := w_sum curr 1 in
      let beta_left := w_sum c_left 1 in
      let beta_right := w_sum c_right 1 in
      let beta_mean := (beta_curr + beta_left + beta_right) / 3 in
      do weights <- w_loop epsilon k_trunc beta_mean curr_degree cs;
      if (length weights =? curr_degree - 1)%nat then
        let epsilon := epsilon + k_epsilon * (beta_left ^ 2 + beta_right ^ 2) / 2 in
        do w <- div 10 (beta_curr ^ 2 + epsilon);
        do w_left <- div 1 (beta_left ^ 2 + epsilon);
        if (curr_degree + 1 <? length cs)%nat
        then do w_right <- div 1 (beta_right ^ 2 + epsilon);
             if (curr_degree + 2 =? length cs)%nat then Some (weights ++ [w; w_left; w_right]) else None
        else Some (weights ++ [w; w_left])
      else Some weights
  end.
Definition w_scalar (epsilon k_epsilon k_trunc : R) (cs : list Candidate) : option (nat -> R) :=
  do weights <- w_weights epsilon k_epsilon k_trunc cs;
  let weight_sum := sum_list weights in
  do weights <- all_some (map (fun w => div w weight_sum) weights);
  Some (fold_left (fun coeff wc k => coeff k + (if (k <? c_n (snd wc))%nat then c_taylor (snd wc) k * fst wc else 0)) (combine weights cs) (fun _ => 0)).

(** ** [CompactWENO] (limiter.py 15-80) *)

(** [get_new_taylor_coeff] for a scalar equation (limiter.py 34-37) *)
Definition z_limit roots inv epsilon w_small (e : Legendre) (left right : option (R -> R)) : option (nat -> R) :=
  do cs <- z_candidates roots inv e left right; z_scalar epsilon w_small cs.
Definition w_limit roots inv epsilon k_epsilon k_trunc (e : Legendre) (left right : option Neighborhood) : option (nat -> R) :=
  do cs <- w_candidates roots inv e left right; w_scalar epsilon k_epsilon k_trunc cs.
(** the values of a neighbor's expansion; [Shifted.global_to_value] (expansion.py 38-40) *)
Definition neighbor_value (es : nat -> Legendre) (b : Neighbor) (x : R) : R :=
  match b with Plain j => l_value (es j) x | Moved j shift => l_value (es j) (x - shift) end.
(** [reconstruct] (limiter.py 19-32): all new coefficients are computed before any is set *)
Definition reconstruct {V} (limit : Legendre -> option (R -> R) -> option (R -> R) -> option (nat -> R)) (g : Grid V) (es : nat -> Legendre) (troubled : list nat) : option (nat -> Legendre) :=
  do coeffs <- all_some (map (fun i => limit (es i) (option_map (neighbor_value es) (left_expansion g i)) (option_map (neighbor_value es) (right_expansion g i))) troubled);
  Some (fold_left (fun es ic => let '(i, coeff) := ic in fun j => if (j =? i)%nat then l_set_taylor_coeff (es i) coeff else es j) (combine troubled coeffs) es).
