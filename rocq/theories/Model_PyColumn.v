(** Model of the columns of the Python package: the coefficients of all elements in one array, in concept.py, lines
    679-720, and spatial.py, lines 45-46 and 88-125.  Coefficients are functions of the term (row) and of the component
    of the equations (column); [system] tells if the equations are a system, in which case the coefficients are arrays
    of components in the code.  [None]: an exception. *)
From Coq Require Import Reals List Arith Bool.
From Verif Require Import Arrays.
Import ListNotations.

(** [for i_col in range(n_col): for i_row in range(n_row): ...] *)
Definition for_cols_rows {A} (n_col n_row : nat) (body : A -> nat -> nat -> option A) (start : A) : option A :=
  fold_left (fun acc i_col => fold_left (fun acc i_row => do a <- acc; body a i_col i_row) (seq 0 n_row) acc) (seq 0 n_col) (Some start).

Record Layout := mkLayout { system : bool; n_term : nat; n_component : nat }.
(** [Element.n_dof] (concept.py 616-619) *)
Definition element_n_dof (y : Layout) : nat := n_term y * n_component y.
(** [Element.set_solution_coeff] (concept.py 679-699): the coefficients which are passed to the expansion; [set_coeff]
    of expansions asserts the length (expansion.py 127-129, 313-315, 556-558) *)
Definition column_to_coeff (y : Layout) (column : list R) : option (nat -> nat -> R) :=
  if system y then
    do a <- for_cols_rows (n_component y) (n_term y) (fun a i_col i_row => let '(coeff, i_dof) := a in
        do v <- nth_error column i_dof;
        Some (fun r c => if (r =? i_row)%nat && (c =? i_col)%nat then v else coeff r c, S i_dof)) (fun _ _ => 0%R, O);
    let '(coeff, i_dof) := a in if Nat.eqb i_dof (length column) then Some coeff else None
  else if Nat.eqb (length column) (n_term y) then Some (fun r _ => nth r column 0%R) else None.
(** [Element.get_solution_column] (concept.py 701-720) *)
Definition coeff_to_column (y : Layout) (coeff : nat -> nat -> R) : option (list R) :=
  if system y then
    do a <- for_cols_rows (n_component y) (n_term y) (fun a i_col i_row => let '(column, i_dof) := a in
        do column <- upd_opt column i_dof (coeff i_row i_col); Some (column, S i_dof)) (repeat 0%R (element_n_dof y), O);
    let '(column, i_dof) := a in if Nat.eqb i_dof (length column) then Some column else None
  else Some (map (fun r => coeff r O) (seq 0 (n_term y))).
(** [FiniteElement._write_to_column] (spatial.py 113-125) *)
Definition write_to_column (y : Layout) (column : list R) (values : nat -> nat -> R) (i_dof : nat) : option (list R * nat) :=
  if system y then
    for_cols_rows (n_component y) (n_term y) (fun a i_col i_row => let '(column, i_dof) := a in
      do column <- upd_opt column i_dof (values i_row i_col); Some (column, S i_dof)) (column, i_dof)
  else
    do column <- write_at column i_dof (map (fun r => values r O) (seq 0 (n_term y))); Some (column, (i_dof + n_term y)%nat).

(** [FiniteElement.n_dof] (spatial.py 45-46) *)
Definition scheme_n_dof (y : Layout) (n_element : nat) : nat := n_element * element_n_dof y.
(** Python's [column[first:last]] with first not above last *)
Definition sub_column (column : list R) (first last : nat) : list R := firstn (last - first) (skipn first column).
(** [FiniteElement.set_solution_column] (spatial.py 88-97), without limiter: the coefficients of each element *)
Definition set_solution_column (y : Layout) (n_element : nat) (column : list R) : option (nat -> nat -> nat -> R) :=
  if Nat.eqb (length column) (scheme_n_dof y n_element) then
    do a <- fold_left (fun acc i => do a <- acc; let '(coeffs, first) := a in
        let last := (first + element_n_dof y)%nat in
        do coeff <- column_to_coeff y (sub_column column first last);
        Some (fun e => if Nat.eqb e i then coeff else coeffs e, last)) (seq 0 n_element) (Some (fun _ _ _ => 0%R, O));
    let '(coeffs, first) := a in if Nat.eqb first (scheme_n_dof y n_element) then Some coeffs else None
  else None.
(** [FiniteElement.get_solution_column] (spatial.py 99-108) *)
Definition get_solution_column (y : Layout) (n_element : nat) (coeffs : nat -> nat -> nat -> R) : option (list R) :=
  do a <- fold_left (fun acc i => do a <- acc; let '(column, first) := a in
      let last := (first + element_n_dof y)%nat in
      do part <- coeff_to_column y (coeffs i);
      if Nat.eqb (length part) (element_n_dof y) then do column <- write_at column first part; Some (column, last) else None)
    (seq 0 n_element) (Some (repeat 0%R (scheme_n_dof y n_element), O));
  let '(column, first) := a in if Nat.eqb first (scheme_n_dof y n_element) then Some column else None.
