(** Specification of the source term of rotors: the forces that it applies to the flow. *)
From Coq Require Import Reals List Arith.
From Verif Require Import Vec3 RSum Model_Aircraft Spec_Aircraft Model_Dofs Model_DG Spec_DG Model_Source.
Import ListNotations.
Open Scope R_scope.

(** a force per length, the point where it acts, and the length of blade on which it acts *)
Record load := Load { l_force : vec; l_point : vec; l_length : R }.
(** the three vectors that [GetForces] fills, read together *)
Definition as_vectors (l : list load) : vectors := (map l_force l, map l_point l, map l_length l).

(** what a force gives per unit of time to component [k] of a flow with the velocity [u]:
    no mass, the force to the momentum, its power to the energy *)
Definition gives (f u : vec) (k : nat) : R :=
  match k with 1%nat => vx f | 2%nat => vy f | 3%nat => vz f | 4%nat => dot f u | _ => 0 end.
Definition load_on (c : cell) (k : nat) (l : load) : R :=
  l_length l * gives (l_force l) (flow_velocity (c_value c (l_point l))) k.

(** every blade has sections that were accepted by [InstallSection], and its end points are those
    of its azimuth (what [SetAzimuth] establishes) *)
Definition blade_ok (r : RotorState) (bst : BladeState * sections) : Prop :=
  let (b, st) := bst in
  st <> [] /\ well_placed st /\ b_span b = GetSpan st
  /\ b_p b = Blade_GetPoint (r_origin r) b 0 /\ b_q b = Blade_GetPoint (r_origin r) b 1 /\ b_pq b = vsub (b_q b) (b_p b).
Definition rotor_ok (r : rotor) : Prop := forall b, In b (r_all r) -> blade_ok (the_rotor r) b.

(** the part of [0, 1] between [alpha] and [beta] *)
Definition inside_length (alpha beta : R) : R := Rmax 0 (Rmin 1 beta - Rmax 0 alpha).
