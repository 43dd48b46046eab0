(** The Riemann solvers as the objects that the schemes call: include/mini/riemann/rotated/euler.hpp and
    include/mini/riemann/rotated/simple.hpp with their unrotated solvers.  A value of the schemes is the array of the
    components (include/mini/riemann/euler/types.hpp:20-60 for the Euler equations in three dimensions: density,
    three momenta, energy). *)
From Coq Require Import Reals List.
From Verif Require Import Arrays Vec3 Model_DG Model_Euler Model_Simple.
Import ListNotations.
Open Scope R_scope.

(** euler/types.hpp:20-60: the accessors of the five components *)
Definition toT (u : value) : Tuple := mkTuple (u 0%nat) (u 1%nat) [u 2%nat; u 3%nat] (u 4%nat).
Definition ofT (t : Tuple) : value := fun k =>
  match k with
  | 0%nat => mass t | 1%nat => mX t | 2%nat => nth 0 (mT t) 0 | 3%nat => nth 1 (mT t) 0 | 4%nat => energy t
  | _ => 0
  end.

(** rotated/euler.hpp:20-194, after [Rotate] to a frame (lines 38-40); [solver] is the unrotated solver *)
Definition euler_riemann (gamma : R) (solver : Tuple -> Tuple -> Tuple) (f : Frame) : riemann :=
  Riemann
    (fun l r => ofT (Rotated_GetFluxUpwind gamma solver f (toT l) (toT r)))
    (fun u => ofT (Model_Euler.GetFluxOnSolidWall gamma f (toT u)))
    (fun u => ofT (Model_Euler.GetFluxOnSupersonicOutlet gamma f (toT u)))
    (fun u => ofT (Model_Euler.GetFluxOnSupersonicInlet gamma f (toT u)))
    (fun i o => ofT (Model_Euler.GetFluxOnSubsonicInlet gamma f (toT i) (toT o)))
    (fun i o => ofT (Model_Euler.GetFluxOnSubsonicOutlet gamma f (toT i) (toT o)))
    (fun i o => ofT (Model_Euler.GetFluxOnSmartBoundary gamma f (toT i) (toT o))).

Section Simple.
  (** rotated/simple.hpp:74-86: the subsonic and smart fluxes are not initialised, so they may be anything *)
  Variable unset : value -> value -> value.

  (** rotated/simple.hpp:44-86 with simple/single.hpp, for the convection coefficient [c], after [Rotate] to a frame
      with the normal [nu] *)
  Definition single_riemann (c nu : R * R * R) : riemann :=
    let a := normal_coefficient c nu in
    Riemann (fun l r _ => Single_GetFluxUpwind a (l 0%nat) (r 0%nat)) (fun _ _ => 0)
      (fun u _ => Single_GetFlux a (u 0%nat)) (fun u _ => Single_GetFlux a (u 0%nat)) unset unset unset.
  (** ... and with simple/burgers.hpp *)
  Definition burgers_riemann (c nu : R * R * R) : riemann :=
    let a := normal_coefficient c nu in
    Riemann (fun l r _ => Burgers_GetFluxUpwind a (l 0%nat) (r 0%nat)) (fun _ _ => 0)
      (fun u _ => Burgers_GetFlux a (u 0%nat)) (fun u _ => Burgers_GetFlux a (u 0%nat)) unset unset unset.
  (** ... and with simple/multiple.hpp for [K] equations; [eigen] is what Eigen makes of a matrix *)
  Definition multiple_riemann (K : nat) (eigen : Mat -> Col * Mat * Mat) (c : Mat * Mat * Mat) (nu : R * R * R) : riemann :=
    let a := normal_mat c nu in
    let '(d, rows, cols) := eigen a in
    Riemann (fun l r => Multiple_GetFluxUpwind K d rows cols l r) (fun _ _ => 0)
      (fun u => Multiple_GetFlux K a u) (fun u => Multiple_GetFlux K a u) unset unset unset.
End Simple.
