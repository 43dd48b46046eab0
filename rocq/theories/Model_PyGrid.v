(** Model of the grids and finite element schemes of the Python package: concept.py, lines 836-970, and spatial.py,
    lines 18-170.  Elements are known by their index; faces are objects, known by their position in the list of all
    faces made so far.  Values of type [V] are the states, fluxes and jumps.  Lists of elements and of faces are
    functions of a valid index; indices may be negative as in Python.  [None]: an exception. *)
From Coq Require Import Reals List Arith ZArith Bool.
From Verif Require Import Arrays Model_PyIntegrator.
Import ListNotations.

(** Python's [a[i]] for an array of length [n]: the position, or [IndexError] *)
Definition index (n : nat) (i : Z) : option nat :=
  if ((0 <=? i) && (i <? Z.of_nat n))%Z then Some (Z.to_nat i)
  else if ((- Z.of_nat n <=? i) && (i <? 0))%Z then Some (Z.to_nat (Z.of_nat n + i))
  else None.
(** [a[i] = v] for a valid position [i] *)
Definition put {A} (a : nat -> A) (i : nat) (v : A) (j : nat) : A := if Nat.eqb j i then v else a j.

(** what a face is made of: [Interface] (concept.py 836-843) and [Inlet] (concept.py 851-860) *)
Inductive Face (V : Type) := Interface (left right : nat) | Inlet (u_given : V) (element : nat) (left : bool).
Arguments Interface {V}. Arguments Inlet {V}.
(** a neighbor expansion: that of the element itself, or wrapped in [Shifted] (spatial.py 53-55) *)
Inductive Neighbor := Plain (element : nat) | Moved (element : nat) (x_shift : R).

(** [Grid] (concept.py 873-878) with the attributes of its elements (concept.py 545-548) and their coordinates *)
Record Grid (V : Type) := mkGrid {
  n_element : nat; coordinates : nat -> Coordinate; x_left_sorted : nat -> R;
  made_faces : list (Face V); faces : nat -> option nat; periodic : bool;
  left_face : nat -> option nat; right_face : nat -> option nat;
  left_expansion : nat -> option Neighbor; right_expansion : nat -> option Neighbor }.
Arguments mkGrid {V}. Arguments n_element {V}. Arguments coordinates {V}. Arguments x_left_sorted {V}. Arguments made_faces {V}.
Arguments faces {V}. Arguments periodic {V}. Arguments left_face {V}. Arguments right_face {V}. Arguments left_expansion {V}. Arguments right_expansion {V}.

Section Grids.
  Context {V : Type}.
  Implicit Types g : Grid V.
  (** attributes are set one at a time *)
  Definition with_faces g l f : Grid V := mkGrid (n_element g) (coordinates g) (x_left_sorted g) l f (periodic g) (left_face g) (right_face g) (left_expansion g) (right_expansion g).
  Definition with_left_face g f : Grid V := mkGrid (n_element g) (coordinates g) (x_left_sorted g) (made_faces g) (faces g) (periodic g) f (right_face g) (left_expansion g) (right_expansion g).
  Definition with_right_face g f : Grid V := mkGrid (n_element g) (coordinates g) (x_left_sorted g) (made_faces g) (faces g) (periodic g) (left_face g) f (left_expansion g) (right_expansion g).
  Definition with_left g f : Grid V := mkGrid (n_element g) (coordinates g) (x_left_sorted g) (made_faces g) (faces g) (periodic g) (left_face g) (right_face g) f (right_expansion g).
  Definition with_right g f : Grid V := mkGrid (n_element g) (coordinates g) (x_left_sorted g) (made_faces g) (faces g) (periodic g) (left_face g) (right_face g) (left_expansion g) f.
  Definition with_periodic g b : Grid V := mkGrid (n_element g) (coordinates g) (x_left_sorted g) (made_faces g) (faces g) b (left_face g) (right_face g) (left_expansion g) (right_expansion g).

  (** [Grid.x_left], [Grid.x_right], [Grid.length] (concept.py 900-913) *)
  Definition grid_x_left g : option R := do i <- index (n_element g) 0; Some (x_left (coordinates g i)).
  Definition grid_x_right g : option R := do i <- index (n_element g) (-1); Some (x_right (coordinates g i)).
  Definition grid_length g : option R := do b <- grid_x_right g; do a <- grid_x_left g; Some (b - a)%R.

  (** [Grid.build_interface] (concept.py 928-938) *)
  Definition build_interface g (i : Z) : option (Grid V) :=
    do r <- index (n_element g) i;
    do l <- index (n_element g) (i - 1);
    let face := length (made_faces g) in
    let g := with_left_face g (put (left_face g) r (Some face)) in
    let g := with_right_face g (put (right_face g) l (Some face)) in
    do k <- index (n_element g + 1) i;
    let g := with_faces g (made_faces g ++ [Interface l r]) (put (faces g) k (Some face)) in
    if (i =? 0)%Z then do last <- index (n_element g + 1) (-1); Some (with_faces g (made_faces g) (put (faces g) last (Some face)))
    else Some g.
  (** [get_face_by_index] (concept.py 885-888) *)
  Definition get_face g (i : Z) : option (option nat) := do k <- index (n_element g + 1) i; Some (faces g k).
  (** [isinstance(face, Inlet)] and [isinstance(face, Interface)] *)
  Definition is_inlet g (face : option nat) : bool :=
    match face with None => false | Some k => match nth_error (made_faces g) k with Some (Inlet _ _ _) => true | _ => false end end.
  Definition is_interface g (face : option nat) : bool :=
    match face with None => false | Some k => match nth_error (made_faces g) k with Some (Interface _ _) => true | _ => false end end.
  Definition is_none {A} (o : option A) : bool := match o with None => true | Some _ => false end.
  Definition same (a b : option nat) : bool := match a, b with None, None => true | Some a, Some b => Nat.eqb a b | _, _ => false end.
  (** [cell._left_expansion = e] and [cell._right_expansion = e] with [cell] the element [i] *)
  Definition set_left g (i : Z) (e : option Neighbor) : option (Grid V) := do k <- index (n_element g) i; Some (with_left g (put (left_expansion g) k e)).
  Definition set_right g (i : Z) (e : option Neighbor) : option (Grid V) := do k <- index (n_element g) i; Some (with_right g (put (right_expansion g) k e)).
  (** [_get_shifted_expansion] (spatial.py 53-55) and the expansion of an element *)
  Definition shifted g (i : Z) (x_shift : R) : option (option Neighbor) := do k <- index (n_element g) i; Some (Some (Moved k x_shift)).
  Definition plain g (i : Z) : option (option Neighbor) := do k <- index (n_element g) i; Some (Some (Plain k)).
  (** the loop of [link_neighbors] (spatial.py 62-68), the round of element [i] *)
  Definition link_inner g (i : nat) : option (Grid V) :=
    do g <- build_interface g (Z.of_nat i);
    do l <- plain g (Z.of_nat i - 1); do g <- set_left g (Z.of_nat i) l;
    do r <- plain g (Z.of_nat i + 1); set_right g (Z.of_nat i) r.
  (** [FiniteElement.link_neighbors] (spatial.py 57-86) *)
  Definition link_neighbors g : option (Grid V) :=
    do r <- plain g 1; do g <- set_right g 0 r;
    do g <- fold_left (fun acc i => do g <- acc; link_inner g i) (seq 1 (n_element g - 2)) (Some g);
    do g <- build_interface g (Z.of_nat (n_element g) - 1);
    do l <- plain g (-2); do g <- set_left g (-1) l;
    if periodic g then
      do first <- get_face g 0; do last <- get_face g (-1);
      if is_none first && is_none last then
        do g <- build_interface g 0;
        do first <- get_face g 0; do last <- get_face g (-1);
        if same first last && is_interface g first then
          do h <- grid_length g; do l <- shifted g (-1) (- h)%R; do g <- set_left g 0 l;
          do h <- grid_length g; do r <- shifted g 0 h; set_right g (-1) r
        else None
      else None
    else
      do first <- get_face g 0; do last <- get_face g (-1);
      if is_inlet g first && is_inlet g last then do g <- set_left g 0 None; set_right g (-1) None else None.

  (** [FiniteElement.__init__] (spatial.py 22-43) with [SpatialScheme.__init__] (concept.py 1066-1075) and
      [Grid.__init__] (concept.py 875-878); [assert_almost_equal] compares exactly *)
  Fixpoint edges (x_left delta_x : R) (i : nat) : R := match i with O => x_left | S k => (edges x_left delta_x k + delta_x)%R end.
  Definition FiniteElement_init (n : nat) (x_left x_right : R) : option (Grid V) :=
    if Rlt_dec x_left x_right then if Nat.ltb 1 n then
      let delta_x := ((x_right - x_left) / INR n)%R in
      let x := edges x_left delta_x in
      if forallb (fun i => if Req_EM_T (x i) (x_left + INR i * delta_x) then true else false) (seq 0 n) then
        if Req_EM_T (x n) x_right then
          link_neighbors (mkGrid n (fun i => Linear (x i) (x (S i))) x [] (fun _ => None) true (fun _ => None) (fun _ => None) (fun _ => None) (fun _ => None))
        else None
      else None
    else None else None.
  (** [Grid.set_boundary_values] (concept.py 940-956); the constructor of [Inlet] multiplies the value by 0 *)
  Definition make_inlet (u : option V) (element : nat) (left : bool) : option (Face V) := do u <- u; Some (Inlet u element left).
  Definition set_boundary_values g (u_left u_right : option V) : option (Grid V) :=
    let g := with_periodic g false in
    do r <- index (n_element g) 0;
    do face <- make_inlet u_left r true;
    let id := length (made_faces g) in
    let g := with_left_face g (put (left_face g) r (Some id)) in
    do k <- index (n_element g + 1) 0;
    let g := with_faces g (made_faces g ++ [face]) (put (faces g) k (Some id)) in
    do l <- index (n_element g) (-1);
    do face <- make_inlet u_right l false;
    let id := length (made_faces g) in
    let g := with_right_face g (put (right_face g) l (Some id)) in
    do k <- index (n_element g + 1) (-1);
    let g := with_faces g (made_faces g ++ [face]) (put (faces g) k (Some id)) in
    link_neighbors g.

  (** [get_element_index] (spatial.py 48-51): [bisect_right] of the sorted list counts the entries not above x *)
  Fixpoint bisect_right (a : nat -> R) (n : nat) (x : R) : nat :=
    match n with O => O | S k => if Rle_dec (a k) x then n else bisect_right a k x end.
  Definition get_element_index g (x : R) : Z := (Z.of_nat (bisect_right (x_left_sorted g) (n_element g) x) - 1)%Z.
  (** [get_element] (concept.py 895-898) *)
  Definition get_element g (x : R) : option nat := index (n_element g) (get_element_index g x).

  (** the first loop of [get_residual_column] (spatial.py 139-145): fluxes and jumps of the faces made so far *)
  Section Residual.
    Variable solve : Face V -> option (V * V).
    Definition solve_faces g : option (nat -> option (V * V)) :=
      fold_left (fun acc i => do s <- acc; do k <- get_face g (Z.of_nat i); do id <- k; do f <- nth_error (made_faces g) id; do v <- solve f; Some (put s id (Some v)))
        (seq 0 (n_element g + (if periodic g then 0 else 1))) (Some (fun _ => None)).
    (** the second loop (spatial.py 146-162): [residual i left right] are the first three steps for the element [i]
        with the fluxes and jumps of its faces, [write] the fourth *)
    Variables (T C : Type) (residual : nat -> V * V -> V * V -> option T) (write : C -> T -> nat -> option (C * nat)).
    Definition solved g (s : nat -> option (V * V)) (face : option nat) : option (V * V) := do id <- face; s id.
    Definition residual_loop g (column : C) : option (C * nat) :=
      do s <- solve_faces g;
      fold_left (fun acc i => do a <- acc; let '(column, i_dof) := a in
          do l <- solved g s (left_face g i); do r <- solved g s (right_face g i); do v <- residual i l r; write column v i_dof)
        (seq 0 (n_element g)) (Some (column, O)).
  End Residual.
End Grids.
