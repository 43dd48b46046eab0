(** Model of the source term of rotors and of the scheme that uses it.
    Sources: include/mini/aircraft/source.hpp lines 89-171 and include/mini/spatial/dg/general.hpp
    lines 215-269 [WithLimiterAndSource].
    The systems have five components: mass, momentum and energy.  [N] is the size of the basis.  A failed assertion
    or an exception is [None].  As elsewhere a density of zero and a section in still air are not treated in a
    special way: the quotients of real numbers by zero stand for the infinities and NaNs of the code. *)
From Coq Require Import Reals List Arith.
From Verif Require Import Vec3 Arrays Model_Aircraft Model_Dofs Model_DG Model_Gauss.
Import ListNotations.
Open Scope R_scope.

(** airfoil.hpp lines 15-21 [Abstract]: the functions [Lift] and [Drag] *)
Definition airfoil := ((R -> R) * (R -> R))%type.
Definition sections := list (Station airfoil).

(** rotor.hpp lines 25-30 and blade.hpp lines 31-37: a rotor with the sections of its blades.  The field
    [b_span] of a blade stands for [GetSpan()] of its sections where blades are turned. *)
Record rotor := Rotor { the_rotor : RotorState; r_sections : list sections }.
Definition r_all (r : rotor) : list (BladeState * sections) := combine (r_blades (the_rotor r)) (r_sections r).
(** rotor.hpp lines 105-113 *)
Definition rotor_update (t : R) (r : rotor) : rotor := Rotor (UpdateAzimuth t (the_rotor r)) (r_sections r).
(** rotor.hpp lines 132-134 [RotateLeftHand] *)
Definition RotateLeftHand (r : RotorState) : bool := if Rlt_dec (r_omega r) 0 then true else false.

Section Source.
  Variable N : nat.
  (** the corners of the triangles [adj_faces_] of a cell, source.hpp lines 51-60 *)
  Variable corners : cell -> list (vec * vec * vec).

  (** source.hpp lines 45-88 [Intersect], with [P()] and [PQ()] of the blade *)
  Definition blade_in_cell (c : cell) (b : BladeState) : R * R :=
    Rotorcraft_Intersect
      (map (fun '(x, y, z) => Intersect (vsub x (b_p b)) (vsub y (b_p b)) (vsub z (b_p b)) (b_pq b)) (corners c)).

  (** section.hpp lines 82-84 [GetOrigin], blade.hpp lines 113-121 [GetPoint] *)
  Definition section_origin (r : RotorState) (b : BladeState) (st : sections) (ratio : R) : option vec :=
    if Valid ratio then
      Some (vadd (vscale (ratio * GetSpan st) (fY (b_frame b))) (Blade_GetOrigin (r_origin r) b))
    else None.

  (** the velocity [cv.momentum() / cv.mass()] of source.hpp lines 91-93 *)
  Definition flow_velocity (u : value) : vec := V (u 1%nat / u 0%nat) (u 2%nat / u 0%nat) (u 3%nat / u 0%nat).

  (** section.hpp lines 90-121 [GetForce] of a section of a blade of a rotor *)
  Definition section_force (r : RotorState) (b : BladeState) (st : sections) (ratio : R) (d : SectionData airfoil)
      (rho : R) (velocity : vec) : vec :=
    let part (f : airfoil -> R -> R) := mix (f (fst (s_left d)), snd (s_left d)) (f (fst (s_right d)), snd (s_right d)) in
    GetForce (b_frame b) (RotateLeftHand r) (s_twist d) (s_chord d) (part fst) (part snd)
      (GetVelocity (b_frame b) (r_omega r) (b_root b) (GetSpan st) ratio) rho velocity.

  (** source.hpp lines 89-97 [GetSourceValue] *)
  Definition GetSourceValue (c : cell) (r : RotorState) (b : BladeState) (st : sections) (ratio : R)
      (d : SectionData airfoil) (xyz : vec) : vec * R :=
    let v := c_value c xyz in
    let uvw := flow_velocity v in
    let force := section_force r b st ratio d (v 0%nat) uvw in
    (force, dot force uvw).

  (** [mini::gauss::Line<Scalar, 1, 4>(r_ratio, s_ratio)] of lines 105 and 151: its coordinates and weights *)
  Definition line_points (r s : R) : list (R * R) :=
    combine (Line_coords r s (Legendre_points 4)) (Line_weights r s (Legendre_weights 4)).

  (** the integrand of source.hpp lines 106-119 *)
  Definition integrand (c : cell) (r : RotorState) (b : BladeState) (st : sections) (ratio : R)
      : option (nat -> nat -> R) :=
    do d <- GetSection st ratio;
    do xyz <- section_origin r b st ratio;
    let (force, power) := GetSourceValue c r b st ratio d xyz in
    let basis := c_basis c xyz in
    Some (fun i j => match i with
      | 0%nat => vx force * basis j | 1%nat => vy force * basis j | 2%nat => vz force * basis j
      | _ => power * basis j end).

  (** line 120: gauss/function.hpp lines 50-63 [Integrate] *)
  Definition integrate (f : R -> option (nat -> nat -> R)) (points : list (R * R)) : option (nat -> nat -> R) :=
    foldM (fun sum '(ratio, w) => do y <- f ratio; Some (fun i j => sum i j + y i j * w)) points (fun _ _ => 0).

  (** [coeff->row(row) += x], the matrix of five rows being stored by columns from [data] on *)
  Definition add_row (row : nat) (x : nat -> R) (data : nat) (m : nat -> R) : nat -> R :=
    fold_left (fun m j => fun a => if (a =? data + (j * 5 + row))%nat then m a + x j else m a) (seq 0 N) m.

  (** source.hpp lines 99-128 [UpdateCoeff] for one blade *)
  Definition UpdateCoeff_blade (c : cell) (r : RotorState) (bst : BladeState * sections) (data : nat) (m : nat -> R)
      : option (nat -> R) :=
    let (b, st) := bst in
    let (r_ratio, s_ratio) := blade_in_cell c b in
    if Rlt_dec r_ratio s_ratio then
      if andb (Valid r_ratio) (Valid s_ratio) then
        do y <- integrate (integrand c r b st) (line_points r_ratio s_ratio);
        let y := fun i j => y i j * GetSpan st in
        let m := add_row 1 (y 0%nat) data m in
        let m := add_row 2 (y 1%nat) data m in
        let m := add_row 3 (y 2%nat) data m in
        Some (add_row 4 (y 3%nat) data m)
      else None
    else Some m.

  (** source.hpp lines 131-138 [UpdateCoeff]: also turns the rotors *)
  Fixpoint UpdateCoeff (c : cell) (t : R) (data : nat) (rotors : list rotor) (m : nat -> R)
      : option (list rotor * (nat -> R)) :=
    match rotors with
    | [] => Some ([], m)
    | r :: rest =>
        let r := rotor_update t r in
        do m <- foldM (fun m b => UpdateCoeff_blade c (the_rotor r) b data m) (r_all r) m;
        do x <- UpdateCoeff c t data rest m;
        let (rest, m) := x : list rotor * (nat -> R) in Some (r :: rest, m)
    end.

  (** the vectors given to [GetForces]: forces, points and weights *)
  Definition vectors := (list vec * list vec * list R)%type.

  (** the body of the loop of source.hpp lines 152-160 *)
  Definition force_at (c : cell) (r : RotorState) (b : BladeState) (st : sections) (out : vectors) (point : R * R)
      : option vectors :=
    let (ratio, w) := point in
    do d <- GetSection st ratio;
    do xyz <- section_origin r b st ratio;
    let (force, power) := GetSourceValue c r b st ratio d xyz in
    let '(forces, points, weights) := out in
    Some (forces ++ [force], points ++ [xyz], weights ++ [w * GetSpan st]).

  (** source.hpp lines 145-160: one blade *)
  Definition GetForces_blade (c : cell) (r : RotorState) (out : vectors) (bst : BladeState * sections) : option vectors :=
    let (b, st) := bst in
    let (r_ratio, s_ratio) := blade_in_cell c b in
    if Rge_dec r_ratio s_ratio then Some out
    else foldM (force_at c r b st) (line_points r_ratio s_ratio) out.

  (** source.hpp lines 140-163 [GetForces] *)
  Fixpoint GetForces (c : cell) (t : R) (rotors : list rotor) (out : vectors) : option (list rotor * vectors) :=
    match rotors with
    | [] => Some ([], out)
    | r :: rest =>
        let r := rotor_update t r in
        do out <- foldM (GetForces_blade c (the_rotor r)) (r_all r) out;
        do x <- GetForces c t rest out;
        let (rest, out) := x : list rotor * vectors in Some (r :: rest, out)
    end.

  (** source.hpp lines 165-168 [InstallRotor] *)
  Definition InstallRotor (rotors : list rotor) (r : rotor) : list rotor := rotors ++ [r].

  (** the source of a scheme: [DummySource] (fem.hpp lines 27-36) or the rotors of a [Rotorcraft] *)
  Inductive source := Dummy | Rotors (rotors : list rotor).

  (** dg/general.hpp lines 259-268 [AddSourceIntegral] *)
  Definition AddSourceIntegral (s : fem) (p : part) (src : source) (residual : column) : option (source * column) :=
    match src with
    | Dummy => Some (Dummy, residual)
    | Rotors rotors =>
        do x <- foldM (fun (x : list rotor * column) c =>
          let (rotors, residual) := x in
          do data <- AddCellDataOffset 5 N (n_cells p) residual (c_id c);
          do y <- UpdateCoeff c (t_curr s) data rotors (at_ residual);
          let (rotors, m) := y : list rotor * (nat -> R) in
          Some (rotors, with_mem residual m)) (local_cells p) (rotors, residual);
        let (rotors, residual) := x : list rotor * column in Some (Rotors rotors, residual)
    end.

  (** dg/general.hpp lines 252-256 [GetResidualColumn]: the residual, and the source afterwards *)
  Definition WithSource_GetResidualColumn (kDegrees : nat) (s : fem) (p : part) (src : source)
      : option (source * column) :=
    do residual <- GetResidualColumn 5 N kDegrees s p;
    AddSourceIntegral s p src residual.
End Source.
