(** Model of the member functions of rotated::Simple: /repo/include/mini/riemann/rotated/simple.hpp, with single.hpp,
    double.hpp, multiple.hpp and burgers.hpp of the same directory.  A failed assertion and a value that is not
    initialised are [None]. *)
From Coq Require Import Reals List.
From Verif Require Import Model_Simple.
Import ListNotations.
Open Scope R_scope.

Section Simple.
  Context {Coefficient Jacobian State : Type}.
  (** simple.hpp:48-50, the sum of the coefficients times the components of the normal *)
  Variable along : Coefficient -> R * R * R -> Jacobian.
  (** [UnrotatedSimple::GetFlux] and [GetFluxUpwind] of the solver built from a Jacobian *)
  Variable GetFlux : Jacobian -> State -> State.
  Variable GetFluxUpwind : Jacobian -> State -> State -> State.
  Variable zero : State.

  (** simple.hpp:101-103: the members [unrotated_simple_] and [frame_] *)
  Record Rotated := mkRotated { unrotated : Jacobian; frame_ : list (R * R * R) }.

  (** the Euclidean norm of a vector *)
  Definition norm3 (v : R * R * R) : R := let '(x, y, z) := v in sqrt (x * x + y * y + z * z).

  (** simple.hpp:44-52 [Rotate] *)
  Definition Rotate (convection_coefficient : Coefficient) (frame : list (R * R * R)) : option Rotated :=
    match frame with
    | [] => None
    | nu :: _ =>
        if Rlt_dec (Rabs (1 - norm3 nu)) (/ 10 ^ 6) then Some (mkRotated (along convection_coefficient nu) frame) else None
    end.
  (** simple.hpp:53-55 [normal] *)
  Definition Rotated_normal (s : Rotated) : R * R * R := hd (0, 0, 0) (frame_ s).
  (** simple.hpp:56-60 *)
  Definition Simple_GetFluxUpwind (s : Rotated) (left right : State) : State := GetFluxUpwind (unrotated s) left right.
  (** simple.hpp:61-65 *)
  Definition Simple_SolidWall (s : Rotated) (state : State) : State := zero.
  (** simple.hpp:66-69 and 70-73 *)
  Definition Simple_SupersonicOutlet (s : Rotated) (state : State) : State := GetFlux (unrotated s) state.
  Definition Simple_SupersonicInlet (s : Rotated) (state : State) : State := GetFlux (unrotated s) state.
  (** simple.hpp:74-77, 78-81 and 82-86: [return {};] calls the default constructor of an Eigen matrix,
      which does not initialise it *)
  Definition Simple_SubsonicInlet (s : Rotated) (inner outer : State) : option State := None.
  Definition Simple_SubsonicOutlet (s : Rotated) (inner outer : State) : option State := None.
  Definition Simple_SmartBoundary (s : Rotated) (inner outer : State) : option State := None.
End Simple.
Arguments Rotated : clear implicits.

(** the solvers of rotated/single.hpp, burgers.hpp and double.hpp; of multiple.hpp for [K] equations the
    decomposition of the matrix is that of [eigen] *)
Definition Rotate1 : (R * R * R) -> list (R * R * R) -> option (Rotated R) := Rotate normal_coefficient.
Definition Rotate2 : (Mat2 * Mat2 * Mat2) -> list (R * R * R) -> option (Rotated Mat2) := Rotate normal_mat2.
Definition RotateK : (Mat * Mat * Mat) -> list (R * R * R) -> option (Rotated Mat) := Rotate normal_mat.
